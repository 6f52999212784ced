(** Words that use every letter, and permutations without a fixed point. *)
From Verif Require Import Prelude CountSpec.

(** A word of n letters below k in which every one of them occurs *)
Definition onto (n k : nat) (w : list nat) : Prop := length w = n /\ Forall (fun x => x < k) w /\ forall i, i < k -> i ∈ w.
(** The numbers below n in an order in which none stands at its own place *)
Definition deranged (n : nat) (t : list nat) : Prop := arrangement n n t /\ forall i, t !! i <> Some i.
