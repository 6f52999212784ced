(** Relations between weighted graphs. *)
From Verif Require Import Prelude.

(** There is an edge u -> v of weight c. *)
Definition wedge (g : list (list (nat * Z))) (u v : nat) (c : Z) : Prop := exists es, g !! u = Some es /\ (v, c) ∈ es.
