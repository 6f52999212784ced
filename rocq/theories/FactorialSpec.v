(** Binomial coefficients and falling factorials. *)
From Coq Require Import Arith.

(** Pascal's triangle. *)
Fixpoint binom (n k : nat) : nat :=
  match n, k with
  | _, 0 => 1
  | 0, S _ => 0
  | S n, S k => binom n k + binom n (S k)
  end.

(** n (n-1) ... (n-k+1) *)
Fixpoint falling (n k : nat) : nat :=
  match k with
  | 0 => 1
  | S k => falling n k * (n - k)
  end.
