(** A client assigning the public field pos of HLD (heavy_light_decomp.rs:14).  Not code of /repo. *)
From Verif Require Import Prelude LazyModel HldModel.

(** h.pos = p *)
Definition with_pos {S F} (x : hld S F) (p : list nat) : hld S F :=
  let h := hd_tree x in Hld (hd_data x) (HL (h_parent h) (h_dep h) (h_heavy h) (h_head h) p (h_posr h)).
