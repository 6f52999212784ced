(** The number of different values in a list: the length of a list of them without repetition. *)
From Verif Require Import Prelude.
Definition distinct (l : list nat) (k : nat) : Prop := exists d, NoDup d /\ (forall x, x ∈ d <-> x ∈ l) /\ length d = k.
