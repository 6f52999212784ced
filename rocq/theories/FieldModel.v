(** Clients that assign public fields: binary_lifting.rs:6 dep, heavy_light_decomp.rs:9 data. *)
From Verif Require Import Prelude UtilModel LiftModel LazyModel HldModel.

(** b.dep = w *)
Definition with_dep (b : bl) (w : list nat) : bl := BL (bl_level b) (bl_pa b) w (bl_tin b) (bl_tout b).

(** binary_lifting.rs:65-68  dis, with the overflow check of usize: bl_dis without it is enough for the depths stored by from,
    not for any dep *)
Definition bl_dis_usize (b : bl) (u v : nat) : res nat :=
  l ← bl_lca b u v;
  du ← vget (bl_dep b) u;
  dl ← vget (bl_dep b) l;
  x ← nsub du dl;
  dv ← vget (bl_dep b) v;
  y ← (if (Z.of_nat (x + dv) <? 2 ^ 64)%Z then Ok (x + dv) else Panic);
  dl ← vget (bl_dep b) l;
  nsub y dl.

(** h.data = t *)
Definition with_data {S F} (x : hld S F) (t : lazytree S F) : hld S F := Hld t (hd_tree x).
