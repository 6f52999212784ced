(** The greatest value of a list (0 if empty) and the sum of these over all sections of a list. *)
From Verif Require Import Prelude ArraySpec.
Definition max_of (l : list nat) : nat := foldr Nat.max 0 l.
(** f 0 + ... + f (n - 1) *)
Fixpoint sumn (n : nat) (f : nat -> nat) : nat := match n with 0 => 0 | S n => sumn n f + f n end.
Definition sum_of_maxima (v : list nat) : nat := sumn (S (length v)) (fun r => sumn r (fun l => max_of (slice v l r))).
(** The widest section around i in which v[i] is the leftmost greatest value. *)
Definition span (v : list nat) (i l r : nat) : Prop := exists x, v !! i = Some x /\ l <= i < r /\ r <= length v /\
  (forall j y, l <= j < i -> v !! j = Some y -> y < x) /\ (forall j y, i < j < r -> v !! j = Some y -> y <= x) /\
  (0 < l -> exists y, v !! (l - 1) = Some y /\ x <= y) /\ (forall y, v !! r = Some y -> x < y).
