(** Paths of a tree. *)
From Verif Require Import Prelude TreeSpec.

(** x is on the path from u to v. *)
Definition between (g : list (list nat)) (u v x : nat) : Prop := exists l, walk g u v l /\ NoDup l /\ x ∈ l.
