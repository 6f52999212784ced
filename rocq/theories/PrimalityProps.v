(** Property C38 in full: is_prime is exact on i32.  The search for strong pseudoprimes (Psp*.v) computes with
    machine integers, so these theorems depend on Coq's primitive 63-bit integers and their specifications. *)
From Coq Require Import Znumtheory.
From Verif Require Import Prelude IntModel IMathModel IMathSpec IMathProof IMathProps ModIntModel PspMath PspMain.
Open Scope Z_scope.

Theorem C38_is_prime : forall n, in_ty i32 n -> exists b, is_prime n = Ok b /\ (b = true <-> prime n).
Proof.
  intros n Hn. destruct (C38_is_prime_strong_tests n Hn) as (b & E & Hb & Hp). exists b. split; [exact E|].
  split; [|exact Hp]. intros Ht. apply Hb in Ht. destruct Ht as [->|[->|[->|(H2 & Ho & S2 & S7 & S61)]]].
  - exact prime_2.
  - exact prime_7.
  - exact prime_61.
  - apply good_prime. assert (n < 2 ^ 31) by (revert Hn; rewrite i32_range; lia). repeat split; try assumption. lia.
Qed.
Print Assumptions C38_is_prime.

(** 2047 and 25326001 are composite and pass the test to base 2; the largest i32 is prime. *)
Example C38_exact_nonvacuous : is_prime 2047 = Ok false /\ is_prime 25326001 = Ok false /\ is_prime 2147483647 = Ok true /\ in_ty i32 2147483647.
Proof. repeat (split; [vm_compute; reflexivity|]). rewrite i32_range. lia. Qed.

(** A wrong prime hint is always noticed in a debug build: with HINT_VALUE_IS_PRIME set on a value that is not prime,
    every inv() panics. *)
Theorem C45_wrong_hint : forall m a, 1 <= m < 2 ^ 32 -> ~ prime m -> static_inv m true a = Panic.
Proof.
  intros m a Hm Hnp. unfold static_inv. destruct (a =? 0); [reflexivity|].
  destruct (Z_lt_le_dec m (2 ^ 31)) as [Hlt|Hge].
  - assert (Hin : in_ty i32 m) by (rewrite i32_range; lia). rewrite chk_ok by exact Hin. cbn [mbind res_bind].
    destruct (C38_is_prime m Hin) as (b & E & Hb). rewrite E. cbn [mbind res_bind].
    destruct b; [exfalso; apply Hnp, Hb; reflexivity|reflexivity].
  - rewrite chk_panic; [reflexivity|]. rewrite i32_range. lia.
Qed.
Print Assumptions C45_wrong_hint.

Example C45_wrong_hint_nonvacuous : static_inv 2047 true 5 = Panic /\ static_inv 2047 false 5 = Ok 819 /\ ~ prime 2047.
Proof.
  split; [vm_compute; reflexivity|]. split; [vm_compute; reflexivity|].
  intros H. apply prime_alt in H as [_ H]. apply (H 23); [lia|]. exists 89. reflexivity.
Qed.
Close Scope Z_scope.
