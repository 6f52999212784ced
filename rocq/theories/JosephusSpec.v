(** The circle counting game: a queue of people; k times the first goes to the back, then the first leaves, and so on. *)
From Verif Require Import Prelude.
Definition turn (q : list nat) : list nat := match q with [] => [] | x :: q => q ++ [x] end.
Inductive leaves (k : nat) : list nat -> list nat -> Prop :=
| leaves_nil : leaves k [] []
| leaves_cons q x q' out : Nat.iter k turn q = x :: q' -> leaves k q' out -> leaves k q (x :: out).
