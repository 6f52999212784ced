(** Largest elements and medians of a list. *)
From Verif Require Import Prelude.

(** l holds k of the elements of v, none of the others is above any of them. *)
Definition largest {T} (le : T -> T -> Prop) (k : nat) (v l : list T) : Prop :=
  length l = k /\ exists rest, v ≡ₚ rest ++ l /\ forall x y, x ∈ rest -> y ∈ l -> le x y.

(** m is an element of v with half of the elements (one more when their number is odd, m itself among them) not above it and the others not below. *)
Definition lower_median {T} (le : T -> T -> Prop) (v : list T) (m : T) : Prop :=
  exists lo hi, v ≡ₚ m :: lo ++ hi /\ (forall x, x ∈ lo -> le x m) /\ (forall y, y ∈ hi -> le m y) /\
    (S (length lo) = length hi \/ length lo = length hi).
