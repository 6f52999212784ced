(** How many elements the vectors of a structure hold. *)
From Verif Require Import Prelude.

(** Elements of a vector of vectors, without the outer one. *)
Definition cells {A} (v : list (list A)) : nat := sum_list_with length v.
(** A vector of a rows of b elements each. *)
Definition grid {A} (a b : nat) (v : list (list A)) : Prop := length v = a /\ Forall (fun r => length r = b) v.
