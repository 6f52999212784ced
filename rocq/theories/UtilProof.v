From Verif Require Import Prelude UtilModel.
Open Scope Z_scope.

Lemma lg_spec i : 0 < i < 2 ^ 64 -> lg i = Ok (Z.log2 i).
Proof.
  intros Hi. unfold lg, leading_zeros, csub.
  destruct (Z.eqb_spec i 0); [lia|].
  assert (Z.log2 i < 64) by (apply Z.log2_lt_pow2; lia).
  assert (0 <= Z.log2 i) by apply Z.log2_nonneg.
  destruct (Z.leb_spec (64 - 1 - Z.log2 i) (64 - 1)); [f_equal; lia|lia].
Qed.

Lemma lg_zero : lg 0 = Panic.
Proof. reflexivity. Qed.

Lemma ceil_lg_spec n : 0 <= n < 2 ^ 32 -> ceil_lg n = Ok (Z.log2_up n).
Proof.
  intros Hn. unfold ceil_lg, leading_zeros, csub, saturating_sub.
  destruct (Z.le_gt_cases n 1) as [Hle|Hgt].
  - rewrite Z.max_l by lia. rewrite Z.eqb_refl.
    destruct (Z.leb_spec 32 32); [|lia]. rewrite Z.log2_up_eqn0 by lia. reflexivity.
  - rewrite Z.max_r by lia. destruct (Z.eqb_spec (n - 1) 0); [lia|].
    assert (Z.log2 (n - 1) < 32) by (apply Z.log2_lt_pow2; lia).
    assert (0 <= Z.log2 (n - 1)) by apply Z.log2_nonneg.
    destruct (Z.leb_spec (32 - 1 - Z.log2 (n - 1)) 32); [|lia].
    f_equal. rewrite Z.log2_up_eqn by lia. replace (Z.pred n) with (n - 1) by lia. lia.
Qed.

(** ** lowbit *)
Lemma land_double a b : Z.land (2 * a) (2 * b) = 2 * Z.land a b.
Proof.
  rewrite !(Z.mul_comm 2).
  change 2 with (2 ^ 1). rewrite <- !Z.shiftl_mul_pow2 by lia.
  symmetry. apply Z.shiftl_land.
Qed.

Lemma land_odd_odd a b : Z.land (2 * a + 1) (2 * b + 1) = 2 * Z.land a b + 1.
Proof.
  apply Z.bits_inj'. intros n Hn. rewrite Z.land_spec.
  destruct (Z.eq_dec n 0) as [->|Hn0].
  - rewrite !Z.testbit_odd_0. reflexivity.
  - replace n with (Z.succ (n - 1)) by lia.
    rewrite !Z.testbit_odd_succ by lia. rewrite Z.land_spec. reflexivity.
Qed.

Lemma land_odd_even a b : Z.land (2 * a + 1) (2 * b) = 2 * Z.land a b.
Proof.
  apply Z.bits_inj'. intros n Hn. rewrite Z.land_spec.
  destruct (Z.eq_dec n 0) as [->|Hn0].
  - rewrite Z.testbit_odd_0, !Z.testbit_even_0. reflexivity.
  - replace n with (Z.succ (n - 1)) by lia.
    rewrite Z.testbit_odd_succ, !Z.testbit_even_succ by lia. rewrite Z.land_spec. reflexivity.
Qed.

Lemma land_neg_odd m : Z.land (2 * m + 1) (- (2 * m + 1)) = 1.
Proof.
  replace (- (2 * m + 1)) with (2 * (Z.lnot m) + 1) by (unfold Z.lnot; lia).
  rewrite land_odd_odd, Z.land_lnot_diag. reflexivity.
Qed.

Close Scope Z_scope.

Lemma lowbit_even m : lowbit (2 * m) = 2 * lowbit m.
Proof.
  unfold lowbit.
  replace (- Z.of_nat (2 * m))%Z with (2 * (- Z.of_nat m))%Z by lia.
  replace (Z.of_nat (2 * m))%Z with (2 * Z.of_nat m)%Z by lia.
  rewrite land_double. rewrite Z2Nat.inj_mul; [reflexivity|lia|].
  apply Z.land_nonneg. left. lia.
Qed.

Lemma lowbit_odd m : lowbit (2 * m + 1) = 1.
Proof.
  unfold lowbit.
  replace (Z.of_nat (2 * m + 1))%Z with (2 * Z.of_nat m + 1)%Z by lia.
  rewrite land_neg_odd. reflexivity.
Qed.

(** Every positive index is 2^k * (2q+1), lowbit is 2^k. *)
Lemma odd_decomp n : 0 < n -> exists k q, n = 2 ^ k * (2 * q + 1).
Proof.
  induction n as [n IH] using lt_wf_ind. intros Hn.
  destruct (Nat.Even_or_Odd n) as [[m ->]|[m ->]].
  - destruct (IH m) as (k & q & Hm); [lia|lia|].
    exists (S k), q. rewrite Nat.pow_succ_r'. lia.
  - exists 0, m. rewrite Nat.pow_0_r. lia.
Qed.

Lemma lowbit_decomp k q : lowbit (2 ^ k * (2 * q + 1)) = 2 ^ k.
Proof.
  induction k as [|k IH].
  - rewrite Nat.pow_0_r, Nat.mul_1_l. apply lowbit_odd.
  - rewrite Nat.pow_succ_r', <- Nat.mul_assoc, lowbit_even, IH. reflexivity.
Qed.

Lemma lowbit_pos n : 0 < n -> 0 < lowbit n.
Proof.
  intros Hn. destruct (odd_decomp n Hn) as (k & q & ->). rewrite lowbit_decomp.
  assert (2 ^ k <> 0) by (apply Nat.pow_nonzero; lia). lia.
Qed.

Lemma lowbit_le n : lowbit n <= n.
Proof.
  destruct (Nat.eq_dec n 0) as [->|Hn]; [exact (Nat.le_refl 0)|].
  destruct (odd_decomp n) as (k & q & ->); [lia|]. rewrite lowbit_decomp.
  generalize (2 ^ k); intros x. nia.
Qed.

Lemma lowbit_pow2 k : lowbit (2 ^ k) = 2 ^ k.
Proof.
  pose proof (lowbit_decomp k 0) as H. rewrite Nat.mul_1_r in H. exact H.
Qed.

(** x is a power of two iff x & -x = x *)
Lemma lowbit_eq_pow2 n : 0 < n -> lowbit n = n -> exists k, n = 2 ^ k.
Proof.
  intros Hn Hl. destruct (odd_decomp n Hn) as (k & q & ->).
  rewrite lowbit_decomp in Hl. exists k.
  assert (2 ^ k <> 0) by (apply Nat.pow_nonzero; lia).
  revert Hl H. generalize (2 ^ k); intros x Hl H. nia.
Qed.

(** idx & (idx - 1) clears the lowest bit *)
Lemma land_pred n : 0 < n -> Nat.land n (n - 1) = n - lowbit n.
Proof.
  intros Hn. destruct (odd_decomp n Hn) as (k & q & ->). rewrite lowbit_decomp.
  clear Hn. induction k as [|k IH].
  - rewrite Nat.pow_0_r, !Nat.mul_1_l.
    replace (2 * q + 1 - 1) with (2 * q) by lia.
    apply Nat.bits_inj. intros n. rewrite Nat.land_spec.
    destruct n as [|n].
    + rewrite Nat.testbit_odd_0, Nat.testbit_even_0. reflexivity.
    + rewrite Nat.testbit_odd_succ, Nat.testbit_even_succ by lia. apply andb_diag.
  - set (m := 2 ^ k * (2 * q + 1)) in *.
    assert (0 < 2 ^ k) by (assert (2 ^ k <> 0) by (apply Nat.pow_nonzero; lia); lia).
    assert (0 < m) by (unfold m; nia).
    rewrite Nat.pow_succ_r', <- Nat.mul_assoc. fold m.
    replace (2 * m - 1) with (2 * (m - 1) + 1) by lia.
    replace (2 * m - 2 * 2 ^ k) with (2 * (m - 2 ^ k)) by lia. rewrite <- IH.
    apply Nat.bits_inj. intros n. rewrite Nat.land_spec.
    destruct n as [|n].
    + rewrite Nat.testbit_odd_0, !Nat.testbit_even_0. reflexivity.
    + rewrite Nat.testbit_odd_succ, !Nat.testbit_even_succ by lia. rewrite Nat.land_spec. reflexivity.
Qed.

Lemma nsub_ok a b : b <= a -> nsub a b = Ok (a - b).
Proof. intros H. unfold nsub. destruct (Nat.leb_spec b a); [reflexivity|lia]. Qed.

(** ** ceil_lg on vector lengths, as used by the segment trees *)
Lemma ceil_lg_pow n : (0 <= n < 2 ^ 32)%Z ->
  exists k, ceil_lg n = Ok k /\ (0 <= k <= 32)%Z /\ (n <= 2 ^ k)%Z.
Proof.
  intros Hn. exists (Z.log2_up n). split; [apply ceil_lg_spec; exact Hn|].
  split.
  - split; [apply Z.log2_up_nonneg|].
    transitivity (Z.log2_up (2 ^ 32)); [apply Z.log2_up_le_mono; lia|].
    rewrite Z.log2_up_pow2; lia.
  - destruct (Z.le_gt_cases n 1).
    + rewrite Z.log2_up_eqn0 by lia. cbn. lia.
    + apply Z.log2_up_spec. lia.
Qed.
