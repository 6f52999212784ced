(** Numbers of words, tuples and bracketings. *)
From Verif Require Import Prelude.

(** There are exactly k things that satisfy P. *)
Definition counts {X} (P : X -> Prop) (k : nat) : Prop := exists L, NoDup L /\ (forall x, x ∈ L <-> P x) /\ length L = k.

Fixpoint count {X} `{EqDecision X} (x : X) (w : list X) : nat :=
  match w with [] => 0 | y :: w => (if decide (y = x) then 1 else 0) + count x w end.
(** 0/1-words of length n with k ones *)
Definition word (n k : nat) (w : list bool) : Prop := length w = n /\ count true w = k.
(** k different numbers below n, in some order *)
Definition arrangement (n k : nat) (t : list nat) : Prop := length t = k /\ NoDup t /\ Forall (fun x => x < n) t.
(** n numbers with sum k *)
Definition composition (n k : nat) (t : list nat) : Prop := length t = n /\ sum_list t = k.
(** Read from the left with h brackets open, every bracket that closes meets an open one, and none is left open. *)
Fixpoint brackets (h : nat) (w : list bool) : Prop :=
  match w with
  | [] => h = 0
  | true :: w => brackets (S h) w
  | false :: w => match h with 0 => False | S h => brackets h w end
  end.
Definition bracketing (n : nat) (w : list bool) : Prop := length w = 2 * n /\ brackets 0 w.
(** Words in which the letter i occurs ks[i] times, and no other letter occurs *)
Definition anagram (ks : list nat) (w : list nat) : Prop := forall i, count i w = default 0 (ks !! i).
