(** Fold of a non-empty slice by an associative operation without identity. *)
From Verif Require Import Prelude ArraySpec.

(** x0 * x1 * ... * xk, left to right; None for the empty list. *)
Definition fold1 {T} (op : T -> T -> T) (l : list T) : option T :=
  match l with [] => None | x :: l => Some (fold_left op l x) end.

(** The block of v of length k starting at i has product x; a block that does not fit counts as init. *)
Definition block {T} (op : T -> T -> T) (v : list T) (init : T) (i k : nat) (x : T) : Prop :=
  (i + k <= length v /\ fold1 op (slice v i (i + k)) = Some x) \/ (length v < i + k /\ x = init).
