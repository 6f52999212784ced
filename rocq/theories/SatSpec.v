(** Formulas in 2-CNF and topological orders. *)
From Verif Require Import Prelude.

(** Literal 2i is the variable i, literal 2i + 1 its negation.  f gives the variables their values. *)
Definition holds (f : list bool) (l : nat) : Prop := f !! (l / 2) = Some (Nat.even l).
(** f satisfies every clause "a or b". *)
Definition satisfies (f : list bool) (cs : list (nat * nat)) : Prop := forall a b, (a, b) ∈ cs -> holds f a \/ holds f b.

(** u stands before v in the list. *)
Definition before (order : list nat) (u v : nat) : Prop := exists i j, i < j /\ order !! i = Some u /\ order !! j = Some v.
