(** Steps of the number theory: Fibonacci numbers and bits. *)
From Verif Require Import Prelude Eff IntModel.
Open Scope Z_scope.

(** The counting program m does what the program r does, in exactly k steps if r returns. *)
Definition takes {A} (m : eff nat A) (r : res A) (k : nat) : Prop := forall w, m w = (a ← r; Ok (a, (w + k)%nat)).

(** Fibonacci numbers: 0, 1, 1, 2, 3, 5, ... *)
Fixpoint fib (n : nat) : Z := match n with O => 0 | S n' => match n' with O => 1 | S n'' => fib n' + fib n'' end end.

(** Number of binary digits, and of ones among them *)
Definition bitlen (n : Z) : nat := if n =? 0 then 0%nat else Z.to_nat (Z.log2 n + 1).
Definition ones (n : Z) : nat := length (filter (fun i => Z.testbit n (Z.of_nat i) = true) (seq 0 (bitlen n))).

(** The most divisions Euclid's algorithm needs on two values of a type *)
Definition euclid_most (T : ity) : nat :=
  match it_bits T, it_signed T with
  | 8, true => 10 | 8, false => 12
  | 16, true => 22 | 16, false => 23
  | 32, true => 45 | 32, false => 46
  | 64, true => 91 | 64, false => 92
  | _, true => 183 | _, false => 185
  end.
Close Scope Z_scope.
