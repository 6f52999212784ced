(** Property theorems for src/misc/util.rs (C49). *)
From Verif Require Import Prelude UtilModel UtilProof.
Open Scope Z_scope.

Lemma lg_floor i : 0 < i < 2 ^ 64 ->
  exists k, lg i = Ok k /\ 0 <= k < 64 /\ 2 ^ k <= i < 2 ^ (k + 1).
Proof.
  intros Hi. exists (Z.log2 i). split; [apply lg_spec; exact Hi|].
  split; [split; [apply Z.log2_nonneg|apply Z.log2_lt_pow2; lia]|].
  apply Z.log2_spec. lia.
Qed.

Lemma ceil_lg_least n : 0 <= n < 2 ^ 32 ->
  exists k, ceil_lg n = Ok k /\ 0 <= k <= 32 /\ n <= 2 ^ k /\
    (forall j, 0 <= j -> n <= 2 ^ j -> k <= j).
Proof.
  intros Hn. destruct (ceil_lg_pow n Hn) as (k & Hk & H1 & H2).
  exists k. split; [exact Hk|]. split; [exact H1|]. split; [exact H2|].
  rewrite (ceil_lg_spec n Hn) in Hk. injection Hk as <-.
  intros j Hj Hle. transitivity (Z.log2_up (2 ^ j)); [apply Z.log2_up_le_mono; exact Hle|].
  rewrite Z.log2_up_pow2; lia.
Qed.

(** C49, lg: floor of the binary logarithm of every non-zero usize. *)
Theorem C49_lg : forall i, 0 < i < 2 ^ 64 ->
  exists k, lg i = Ok k /\ 0 <= k < 64 /\ 2 ^ k <= i < 2 ^ (k + 1).
Proof. exact lg_floor. Qed.
Print Assumptions C49_lg.

(** C49, lg(0) panics (u32 underflow). *)
Theorem C49_lg_zero : lg 0 = Panic.
Proof. exact lg_zero. Qed.
Print Assumptions C49_lg_zero.

(** C49, ceil_lg: the least k with n <= 2^k, for every u32. *)
Theorem C49_ceil_lg : forall n, 0 <= n < 2 ^ 32 ->
  exists k, ceil_lg n = Ok k /\ 0 <= k <= 32 /\ n <= 2 ^ k /\
    (forall j, 0 <= j -> n <= 2 ^ j -> k <= j).
Proof. exact ceil_lg_least. Qed.
Print Assumptions C49_ceil_lg.

Example C49_nonvacuous : lg 1023 = Ok 9 /\ ceil_lg 9 = Ok 4 /\ ceil_lg (2 ^ 32 - 1) = Ok 32.
Proof. vm_compute. auto. Qed.
