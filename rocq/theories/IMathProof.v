(** Proofs for src/math/internal_math.rs. *)
From Coq Require Import Znumtheory Zpow_facts.
From Verif Require Import Prelude NumTheory IntModel NumProof IMathModel IMathSpec.
Open Scope Z_scope.

Lemma u64_range x : in_ty u64 x <-> 0 <= x <= 2 ^ 64 - 1.
Proof. reflexivity. Qed.
Lemma u32_range x : in_ty u32 x <-> 0 <= x <= 2 ^ 32 - 1.
Proof. reflexivity. Qed.
Lemma u128_range x : in_ty u128 x <-> 0 <= x <= 2 ^ 128 - 1.
Proof. reflexivity. Qed.
Lemma i32_range x : in_ty i32 x <-> - 2 ^ 31 <= x <= 2 ^ 31 - 1.
Proof. unfold in_ty, it_min, it_max. cbn [it_signed it_bits i32]. replace (32 - 1) with 31 by lia. reflexivity. Qed.
Lemma wrap_u32 x : wrap u32 x = x mod 2 ^ 32.
Proof. unfold wrap. cbn [it_min it_signed u32 it_bits]. rewrite Z.sub_0_r, Z.add_0_r. reflexivity. Qed.
Lemma wrap_u64 x : wrap u64 x = x mod 2 ^ 64.
Proof. unfold wrap. cbn [it_min it_signed u64 it_bits]. rewrite Z.sub_0_r, Z.add_0_r. reflexivity. Qed.
Lemma wrap_i64 x : - 2 ^ 63 <= x <= 2 ^ 63 - 1 -> wrap i64 x = x.
Proof. intros H. apply wrap_id; [reflexivity|]. rewrite i64_range. exact H. Qed.
Lemma wrap_i32 x : - 2 ^ 31 <= x <= 2 ^ 31 - 1 -> wrap i32 x = x.
Proof. intros H. apply wrap_id; [reflexivity|]. rewrite i32_range. exact H. Qed.

(** unsigned/nonnegative remainder and quotient *)
Lemma irem_pos T a b : 2 <= it_bits T -> in_ty T a -> in_ty T b -> 0 <= a -> 0 < b -> irem T a b = Ok (a mod b).
Proof.
  intros HT Ha Hb H1 H2. rewrite irem_ok; try assumption; [|lia|unfold bad; lia].
  rewrite Z.rem_mod_nonneg by lia. reflexivity.
Qed.
Lemma idiv_pos T a b : 2 <= it_bits T -> in_ty T a -> in_ty T b -> 0 <= a -> 0 < b -> idiv T a b = Ok (a / b).
Proof.
  intros HT Ha Hb H1 H2. rewrite idiv_ok; try assumption; [|lia|unfold bad; lia].
  rewrite Z.quot_div_nonneg by lia. reflexivity.
Qed.

(** ** safe_mod *)
Lemma safe_mod_ok x m : in_ty i64 x -> in_ty i64 m -> 1 <= m -> safe_mod x m = Ok (x mod m).
Proof.
  intros Hx Hm H1. unfold safe_mod. rewrite irem_ok; [|cbn; lia|assumption..|lia|unfold bad; lia]. cbn [mbind res_bind].
  rewrite i64_range in *.
  pose proof (Z.quot_rem x m ltac:(lia)) as E. pose proof (Z.rem_bound_abs x m ltac:(lia)).
  destruct (Z.ltb_spec (Z.rem x m) 0).
  - rewrite iadd_ok by (rewrite i64_range; lia). f_equal.
    apply (Z.mod_unique x m (Z.quot x m - 1)); lia.
  - f_equal. apply (Z.mod_unique x m (Z.quot x m)); lia.
Qed.

(** ** Barrett *)
Lemma mul_mod_ok m a b im : 2 <= m <= 2 ^ 31 -> 0 <= a < m -> 0 <= b < m -> im = (2 ^ 64 - 1) / m + 1 ->
  mul_mod a b m im = Ok (a * b mod m).
Proof.
  intros Hm Ha Hb Him.
  assert (Hz : 0 <= a * b <= (m - 1) * (m - 1)) by nia.
  assert (Hz62 : a * b < 2 ^ 62).
  { assert ((m - 1) * (m - 1) < 2 ^ 31 * 2 ^ 31) by (clear -Hm; nia). change (2 ^ 62) with (2 ^ 31 * 2 ^ 31). lia. }
  pose proof (Z.div_mod (2 ^ 64 - 1) m ltac:(lia)) as E1. pose proof (Z.mod_pos_bound (2 ^ 64 - 1) m ltac:(lia)) as B1.
  set (r0 := (2 ^ 64 - 1) mod m) in *. set (q0 := (2 ^ 64 - 1) / m) in *.
  assert (Er : im * m = 2 ^ 64 + (m - 1 - r0)) by (subst im; lia).
  assert (Him63 : 1 <= im <= 2 ^ 63).
  { subst im. assert (0 <= q0) by (apply Z.div_pos; lia). assert (q0 * 2 <= 2 ^ 64 - 1) by (clear -E1 B1 Hm H; nia). lia. }
  clearbody r0 q0.
  unfold mul_mod. rewrite imul_ok by (rewrite u64_range; lia). cbn [mbind res_bind].
  set (z := a * b) in *. 
  assert (Hp : 0 <= z * im <= 2 ^ 62 * 2 ^ 63) by (clear -Hz Hz62 Him63; nia).
  rewrite imul_ok by (rewrite u128_range; change (2 ^ 62 * 2 ^ 63) with (2 ^ 125) in Hp; lia). cbn [mbind res_bind].
  rewrite Z.shiftr_div_pow2 by lia.
  pose proof (Z.div_mod z m ltac:(lia)) as E2. pose proof (Z.mod_pos_bound z m ltac:(lia)) as B2.
  set (c := z / m) in *. set (d := z mod m) in *. clearbody c d z.
  set (r := m - 1 - r0) in *. assert (Hr : 0 <= r < m) by lia. clearbody r.
  assert (Hc : 0 <= c < m) by (clear -E2 B2 Hz Hm; nia).
  assert (Ez : z * im = c * 2 ^ 64 + (c * r + d * im)).
  { replace (z * im) with (c * (im * m) + d * im) by (rewrite E2; ring). rewrite Er. ring. }
  assert (Hcr : 0 <= c * r <= (2 ^ 31 - 1) * (2 ^ 31 - 1)) by (clear -Hc Hr Hm; nia).
  assert (Hdi : 0 <= d * im <= 2 ^ 64 + r - im).
  { split; [clear -B2 Him63; nia|]. assert (d * im <= (m - 1) * im) by (clear -B2 Him63; nia). lia. }
  assert (Hx : z * im / 2 ^ 64 = c \/ z * im / 2 ^ 64 = c + 1).
  { rewrite Ez. rewrite Z.add_comm, Z.div_add by lia.
    assert (Hlow : 0 <= c * r + d * im < 2 * 2 ^ 64) by lia. clear -Hlow.
    set (w := c * r + d * im) in *. pose proof (Z.div_pos w (2 ^ 64) ltac:(lia) ltac:(lia)).
    pose proof (Z.div_lt_upper_bound w (2 ^ 64) 2 ltac:(lia) ltac:(lia)). lia. }
  assert (Hw : forall x, (x = c \/ x = c + 1) -> wrap u64 x = x).
  { intros x H. rewrite wrap_u64. apply Z.mod_small. lia. }
  rewrite (Hw _ Hx). rewrite !wrap_u64, !wrap_u32.
  rewrite (Zminus_mod_idemp_r z).
  assert (M64 : forall y, (y mod 2 ^ 64) mod 2 ^ 32 = y mod 2 ^ 32).
  { intros y. symmetry. apply Zmod_div_mod; [lia..|]. exists (2 ^ 32). reflexivity. }
  rewrite M64.
  destruct Hx as [-> | ->].
  - replace (z - c * m) with d by lia. rewrite Z.mod_small by lia.
    destruct (Z.leb_spec m d); [lia|]. reflexivity.
  - replace (z - (c + 1) * m) with (d - m) by lia.
    replace ((d - m) mod 2 ^ 32) with (2 ^ 32 + d - m).
    2:{ symmetry. rewrite <- (Z_mod_plus_full (d - m) 1). rewrite Z.mod_small by lia. lia. }
    destruct (Z.leb_spec m (2 ^ 32 + d - m)); [|lia].
    replace (2 ^ 32 + d - m + m) with (d + 1 * 2 ^ 32) by lia. rewrite Z_mod_plus_full.
    rewrite Z.mod_small by lia. reflexivity.
Qed.

Lemma barrett_ok m a b : 1 <= m <= 2 ^ 31 -> 0 <= a < m -> 0 <= b < m ->
  exists br, barrett_new m = Ok br /\ barrett_umod br = m /\ barrett_mul br a b = Ok (a * b mod m).
Proof.
  intros Hm Ha Hb. unfold barrett_new. rewrite wrap_u64.
  change (-1 mod 2 ^ 64) with (2 ^ 64 - 1).
  rewrite idiv_pos; [|cbn; lia|rewrite u64_range; lia..|lia|lia]. cbn [mbind res_bind].
  eexists. split; [reflexivity|]. split; [reflexivity|]. unfold barrett_mul. cbn [br_m br_im].
  destruct (Z.eq_dec m 1) as [->|Hn].
  - assert (a = 0) by lia. assert (b = 0) by lia. subst. vm_compute. reflexivity.
  - apply mul_mod_ok; [lia..|]. rewrite wrap_u64, Z.mod_small; [reflexivity|].
    pose proof (Z.div_lt_upper_bound (2 ^ 64 - 1) m (2 ^ 63) ltac:(lia) ltac:(nia)).
    pose proof (Z.div_pos (2 ^ 64 - 1) m ltac:(lia) ltac:(lia)). lia.
Qed.

(** ** pow_mod *)
Lemma land1 n : Z.land n 1 = n mod 2.
Proof. change 1 with (Z.ones 1). rewrite Z.land_ones by lia. reflexivity. Qed.

Lemma pow_double y n : 0 <= n -> y ^ n = (if 0 <? n mod 2 then y else 1) * (y * y) ^ (n / 2).
Proof.
  intros H. pose proof (Z.div_mod n 2 ltac:(lia)) as E. pose proof (Z.mod_pos_bound n 2 ltac:(lia)) as B.
  pose proof (Z.div_pos n 2 ltac:(lia) ltac:(lia)).
  replace (y * y) with (y ^ 2) by ring. rewrite <- Z.pow_mul_r by lia.
  destruct (Z.ltb_spec 0 (n mod 2)).
  - replace n with (Z.succ (2 * (n / 2))) at 1 by lia. rewrite Z.pow_succ_r by lia. reflexivity.
  - replace n with (2 * (n / 2)) at 1 by lia. lia.
Qed.

Lemma pow_mod_step_eq m n r y : pow_mod_step m (n, r, y) =
  if n =? 0 then Ok (inr r)
  else
    r ← (if 0 <? Z.land n 1 then p ← imul u64 r y; irem u64 p m else Ok r);
    p ← imul u64 y y;
    y ← irem u64 p m;
    Ok (inl (Z.shiftr n 1, r, y)).
Proof. reflexivity. Qed.

Lemma pow_mod_loop m x n0 : 2 <= m <= 2 ^ 31 - 1 -> forall fuel n r y, 0 <= n < 2 ^ Z.of_nat fuel ->
  0 <= r < m -> 0 <= y < m -> (r * y ^ n) mod m = x ^ n0 mod m ->
  rloop (S fuel) (pow_mod_step m) (n, r, y) = Ok (x ^ n0 mod m).
Proof.
  intros Hm fuel. 
  assert (P : forall u v, 0 <= u < m -> 0 <= v < m -> imul u64 u v = Ok (u * v)).
  { intros u v Hu Hv. apply imul_ok. rewrite u64_range. assert (0 <= u * v <= (2 ^ 31) * (2 ^ 31)) by nia.
    change (2 ^ 31 * 2 ^ 31) with (2 ^ 62) in *. lia. }
  assert (R : forall u v, 0 <= u < m -> 0 <= v < m -> irem u64 (u * v) m = Ok ((u * v) mod m)).
  { intros u v Hu Hv. specialize (P u v Hu Hv). unfold imul in P. apply chk_inv in P as [_ P].
    apply irem_pos; [cbn; lia|assumption|rewrite u64_range; lia|nia|lia]. }
  induction fuel as [|fuel IH]; intros n r y Hn Hr Hy HI.
  - assert (n = 0) by (change (2 ^ Z.of_nat 0) with 1 in Hn; lia). subst. cbn [rloop pow_mod_step].
    change (0 =? 0) with true. cbv iota. cbn [mbind res_bind]. f_equal. rewrite <- HI, Z.pow_0_r, Z.mul_1_r, Z.mod_small; lia.
  - remember (S fuel) as f eqn:Ef. cbn [rloop]. rewrite pow_mod_step_eq.
    destruct (Z.eqb_spec n 0) as [->|Hn0].
    { cbn [mbind res_bind]. f_equal. rewrite <- HI, Z.pow_0_r, Z.mul_1_r, Z.mod_small; lia. }
    rewrite land1, Z.shiftr_div_pow2 by lia. change (2 ^ 1) with 2.
    assert (Hn2 : 0 <= n / 2 < 2 ^ Z.of_nat fuel).
    { split; [apply Z.div_pos; lia|]. apply Z.div_lt_upper_bound; [lia|]. subst f.
      rewrite Nat2Z.inj_succ, Z.pow_succ_r in Hn by lia. lia. }
    rewrite (pow_double y n) in HI by lia.
    assert (B : forall u, 0 <= u mod m < m) by (intros; apply Z.mod_pos_bound; lia).
    destruct (0 <? n mod 2).
    + rewrite (P r y) by assumption. cbn [mbind res_bind]. rewrite (R r y) by assumption. cbn [mbind res_bind].
      rewrite (P y y) by assumption. cbn [mbind res_bind]. rewrite (R y y) by assumption. cbn [mbind res_bind].
      subst f. apply IH; [assumption|apply B|apply B|].
      rewrite <- HI. rewrite Z.mul_assoc. rewrite Zmult_mod_idemp_l.
      rewrite (Zmult_mod (r * y)), <- (Zpower_mod (y * y)) by lia. rewrite <- Zmult_mod. reflexivity.
    + cbn [mbind res_bind].
      rewrite (P y y) by assumption. cbn [mbind res_bind]. rewrite (R y y) by assumption. cbn [mbind res_bind].
      subst f. apply IH; [assumption|assumption|apply B|].
      rewrite <- HI. rewrite Z.mul_1_l.
      rewrite (Zmult_mod r), <- (Zpower_mod (y * y)) by lia. rewrite <- Zmult_mod. reflexivity.
Qed.

Lemma pow_mod_ok x n m : in_ty i64 x -> in_ty i64 n -> 0 <= n -> in_ty i32 m -> 1 <= m ->
  pow_mod x n m = Ok (x ^ n mod m).
Proof.
  intros Hx Hn Hn0 Hm Hm1. unfold pow_mod. destruct (Z.eqb_spec m 1) as [->|Hne].
  - f_equal. symmetry. apply Z.mod_1_r.
  - rewrite i32_range in Hm. rewrite safe_mod_ok; [|assumption|rewrite i64_range; lia|lia]. cbn [mbind res_bind].
    rewrite wrap_u32, Z.mod_small by lia. rewrite i64_range in Hn.
    pose proof (Z.mod_pos_bound x m ltac:(lia)) as B.
    rewrite wrap_u64, (Z.mod_small (x mod m)) by lia.
    rewrite (pow_mod_loop m x n).
    + cbn [mbind res_bind]. rewrite wrap_i64; [reflexivity|]. pose proof (Z.mod_pos_bound (x ^ n) m ltac:(lia)). lia.
    + lia.
    + change (2 ^ Z.of_nat 64) with (2 ^ 64). lia.
    + lia.
    + assumption.
    + rewrite Z.mul_1_l. symmetry. apply Zpower_mod. lia.
Qed.

(** A negative exponent: the arithmetic shift never reaches 0. *)
Lemma pow_mod_neg_loop m : 2 <= m <= 2 ^ 31 - 1 -> forall fuel n r y, n < 0 -> 0 <= r < m -> 0 <= y < m ->
  rloop fuel (pow_mod_step m) (n, r, y) = Diverge.
Proof.
  intros Hm.
  assert (P : forall u v, 0 <= u < m -> 0 <= v < m -> imul u64 u v = Ok (u * v)).
  { intros u v Hu Hv. apply imul_ok. rewrite u64_range. assert (0 <= u * v <= (2 ^ 31) * (2 ^ 31)) by nia.
    change (2 ^ 31 * 2 ^ 31) with (2 ^ 62) in *. lia. }
  assert (R : forall u v, 0 <= u < m -> 0 <= v < m -> irem u64 (u * v) m = Ok ((u * v) mod m)).
  { intros u v Hu Hv. specialize (P u v Hu Hv). unfold imul in P. apply chk_inv in P as [_ P].
    apply irem_pos; [cbn; lia|assumption|rewrite u64_range; lia|nia|lia]. }
  assert (B : forall u, 0 <= u mod m < m) by (intros; apply Z.mod_pos_bound; lia).
  induction fuel as [|fuel IH]; intros n r y Hn Hr Hy; [reflexivity|]. cbn [rloop]. rewrite pow_mod_step_eq.
  destruct (Z.eqb_spec n 0); [lia|]. rewrite Z.shiftr_div_pow2 by lia.
  assert (Hn' : n / 2 ^ 1 < 0) by (apply Z.div_lt_upper_bound; lia).
  destruct (0 <? Z.land n 1).
  - rewrite (P r y) by assumption. cbn [mbind res_bind]. rewrite (R r y) by assumption. cbn [mbind res_bind].
    rewrite (P y y) by assumption. cbn [mbind res_bind]. rewrite (R y y) by assumption. cbn [mbind res_bind]. apply IH; auto.
  - cbn [mbind res_bind].
    rewrite (P y y) by assumption. cbn [mbind res_bind]. rewrite (R y y) by assumption. cbn [mbind res_bind]. apply IH; auto.
Qed.

(** ** Removing a factor *)
Lemma strip_loop T i (step : Z -> res (Z + Z)) : 2 <= it_bits T -> in_ty T i -> 2 <= i ->
  (forall x, step x = (r ← irem T x i; if r =? 0 then x' ← idiv T x i; Ok (inl x') else Ok (inr x))) ->
  forall fuel x, in_ty T x -> 0 < x < 2 ^ Z.of_nat fuel ->
  exists k y, 0 <= k /\ x = i ^ k * y /\ 0 < y /\ ~ (i | y) /\ rloop (S fuel) step x = Ok y.
Proof.
  intros HT Hi Hi2 Hstep. induction fuel as [|fuel IH]; intros x Hx Hb.
  - change (2 ^ Z.of_nat 0) with 1 in Hb. lia.
  - remember (S fuel) as f eqn:Ef. cbn [rloop]. rewrite Hstep. rewrite irem_pos by (assumption || lia). cbn [mbind res_bind].
    destruct (Z.eqb_spec (x mod i) 0) as [E|E].
    + rewrite idiv_pos by (assumption || lia). cbn [mbind res_bind].
      pose proof (Z.div_mod x i ltac:(lia)) as Ed. rewrite E in Ed.
      assert (Hq : 0 < x / i < x) by nia.
      destruct (IH (x / i)) as (k & y & Hk & Ex & Hy & Hd & ->).
      * unfold in_ty in *. assert (it_min T <= 0). { unfold it_min. destruct (it_signed T); [|lia]. pose proof (Z.pow_nonneg 2 (it_bits T - 1)). lia. } lia.
      * split; [lia|]. subst f. rewrite Nat2Z.inj_succ, Z.pow_succ_r in Hb by lia. nia.
      * exists (Z.succ k), y. rewrite Z.pow_succ_r by lia. split; [lia|]. split; [rewrite <- Z.mul_assoc, <- Ex; lia|]. auto.
    + exists 0, x. rewrite Z.pow_0_r. split; [lia|]. split; [lia|]. split; [lia|].
      split; [rewrite <- Z.mod_divide by lia; exact E|reflexivity].
Qed.

(** ** Strong pseudoprimes *)
(** If all prime divisors are 1 modulo M, so is n. *)
Lemma all_primes_1 M n : 0 < M -> 0 < n -> (forall p, prime p -> (p | n) -> (M | p - 1)) -> (M | n - 1).
Proof.
  intros HM H. assert (exists k, n <= Z.of_nat k) as [k Hk] by (exists (Z.to_nat n); lia).
  revert n H Hk. induction k as [|k IH]; intros n H Hk Hall; [lia|].
  destruct (Z.eq_dec n 1) as [->|Hn]; [exists 0; lia|].
  destruct (exists_prime_divisor n) as (p & Hp & [q Hq]); [lia|].
  pose proof (prime_ge_2 p Hp).
  assert (Hp1 : (M | p - 1)) by (apply Hall; [exact Hp|exists q; exact Hq]).
  assert (Hq1 : (M | q - 1)).
  { apply IH; [nia|nia|]. intros r Hr Hrd. apply Hall; [exact Hr|]. rewrite Hq. apply Z.divide_mul_l. exact Hrd. }
  replace (n - 1) with (p * (q - 1) + (p - 1)) by lia.
  apply Z.divide_add_r; [apply Z.divide_mul_r|]; assumption.
Qed.

Lemma gcd_pow2 s x : 0 <= s -> exists j, 0 <= j <= s /\ Z.gcd (2 ^ s) x = 2 ^ j.
Proof.
  intros Hs. assert (H : (Z.gcd (2 ^ s) x | 2 ^ s)) by apply Z.gcd_divide_l.
  pose proof (Z.gcd_nonneg (2 ^ s) x) as H0. set (g := Z.gcd (2 ^ s) x) in *. clearbody g.
  revert g H H0. pattern s. apply natlike_ind; [| |exact Hs].
  - intros g H H0. change (2 ^ 0) with 1 in H. exists 0. split; [lia|].
    apply Z.divide_1_r_nonneg in H; [|exact H0]. lia.
  - clear s Hs. intros s Hs IH g H H0. rewrite Z.pow_succ_r in H by lia.
    destruct (Z.Even_or_Odd g) as [[g' ->]|Ho].
    + apply Z.mul_divide_cancel_l in H; [|lia]. destruct (IH g' H ltac:(lia)) as (j & Hj & ->).
      exists (Z.succ j). rewrite Z.pow_succ_r by lia. split; lia.
    + assert (Hg : (g | 2 ^ s)).
      { apply Gauss with 2; [exact H|]. apply rel_prime_sym. apply prime_rel_prime; [apply prime_2|].
        intros [c Hc]. destruct Ho as [d Hd]. lia. }
      destruct (IH g Hg H0) as (j & Hj & E). exists j. split; [lia|exact E].
Qed.

(** n - 1 = 2^s d *)
Lemma odd_part n : 0 < n -> exists s d, 0 <= s /\ 0 < d /\ Z.odd d = true /\ n = 2 ^ s * d.
Proof.
  intros H. assert (exists k, n <= Z.of_nat k) as [k Hk] by (exists (Z.to_nat n); lia).
  revert n H Hk. induction k as [|k IH]; intros n H Hk; [lia|].
  destruct (Z.odd n) eqn:E; [exists 0, n; rewrite Z.pow_0_r; repeat split; lia || assumption|].
  rewrite <- Z.negb_even, negb_false_iff, Z.even_spec in E. destruct E as [c ->].
  destruct (IH c) as (s & d & Hs & Hd & Ho & ->); [lia..|].
  exists (Z.succ s), d. rewrite Z.pow_succ_r by lia. repeat split; lia || assumption.
Qed.

(** a^(n-1) is never -1 modulo an odd n > 1. *)
Lemma no_minus_one n a : 1 < n -> Z.odd n = true -> ~ (n | a ^ (n - 1) + 1).
Proof.
  intros Hn Hodd Hd. destruct (odd_part (n - 1)) as (s & d & Hs & Hd0 & Hdo & E); [lia|].
  assert (Hall : (2 ^ (s + 1) | n - 1)).
  { apply all_primes_1; [apply Z.pow_pos_nonneg; lia|lia|]. intros p Hp Hpn.
    pose proof (prime_ge_2 p Hp) as Hp2.
    assert (Hpodd : p <> 2).
    { intros ->. destruct Hpn as [c ->]. rewrite Z.odd_mul in Hodd. rewrite andb_true_iff in Hodd. destruct Hodd; discriminate. }
    assert (Hpd : (p | (a ^ d) ^ (2 ^ s) + 1)).
    { rewrite <- Z.pow_mul_r by (try lia; apply Z.pow_nonneg; lia). rewrite Z.mul_comm, <- E. eapply Z.divide_trans; eassumption. }
    set (b := a ^ d) in *. clearbody b.
    assert (P2 : 0 < 2 ^ s) by (apply Z.pow_pos_nonneg; lia).
    assert (Hb : ~ (p | b)).
    { intros Hb. assert (Hb2 : (p | b ^ (2 ^ s))).
      { replace (2 ^ s) with (Z.succ (2 ^ s - 1)) by lia. rewrite Z.pow_succ_r by lia. apply Z.divide_mul_l. exact Hb. }
      assert (H1 : (p | 1)). { replace 1 with ((b ^ 2 ^ s + 1) - b ^ 2 ^ s) by ring. apply Z.divide_sub_r; assumption. }
      apply Z.divide_1_r_nonneg in H1; lia. }
    pose proof (@fermat_Z p b Hp Hb) as Hf. rewrite pow_mod_eq_iff in Hf by lia.
    assert (H2s : (p | b ^ (2 ^ (s + 1)) - 1)).
    { rewrite Z.pow_add_r by lia. rewrite Z.pow_mul_r by lia. rewrite Z.pow_2_r.
      replace (b ^ 2 ^ s * b ^ 2 ^ s - 1) with ((b ^ 2 ^ s - 1) * (b ^ 2 ^ s + 1)) by ring. apply Z.divide_mul_r. exact Hpd. }
    assert (Hrel : rel_prime b p) by (apply rel_prime_sym, prime_rel_prime; assumption).
    pose proof (order_gcd p b (2 ^ (s + 1)) (p - 1) ltac:(lia) ltac:(apply Z.pow_nonneg; lia) ltac:(lia) Hrel H2s Hf) as Hg.
    destruct (gcd_pow2 (s + 1) (p - 1)) as (j & Hj & Ej); [lia|].
    destruct (Z.eq_dec j (s + 1)) as [->|Hne].
    - rewrite <- Ej. apply Z.gcd_divide_r.
    - exfalso. rewrite Ej in Hg.
      assert (H1 : (p | b ^ 2 ^ s - 1)).
      { replace s with (j + (s - j)) by lia. rewrite Z.pow_add_r by lia. rewrite Z.pow_mul_r by (apply Z.pow_nonneg; lia).
        apply dvd_pow_1; [apply Z.pow_nonneg; lia|exact Hg]. }
      assert (H2 : (p | 2)). { replace 2 with ((b ^ 2 ^ s + 1) - (b ^ 2 ^ s - 1)) by ring. apply Z.divide_sub_r; assumption. }
      apply Z.divide_pos_le in H2; lia. }
  rewrite E, Z.pow_add_r in Hall by lia. apply Z.mul_divide_cancel_l in Hall; [|pose proof (Z.pow_pos_nonneg 2 s); lia].
  destruct Hall as [c ->]. rewrite Z.odd_mul, andb_true_iff in Hdo. destruct Hdo; discriminate.
Qed.

(** A prime passes for every base it does not divide. *)
Lemma prime_sprp n a : prime n -> Z.odd n = true -> ~ (n | a) -> sprp n a.
Proof.
  intros Hp Hodd Ha. pose proof (prime_ge_2 n Hp) as Hn.
  destruct (odd_part (n - 1)) as (s & d & Hs & Hd0 & Hdo & E); [lia|].
  exists s, d. split; [exact Hs|]. split; [exact Hdo|]. split; [exact Hd0|]. split; [exact E|].
  pose proof (@fermat_Z n a Hp Ha) as Hf. rewrite pow_mod_eq_iff in Hf by lia. rewrite E in Hf.
  clear E Hodd. revert Hf. pattern s. apply natlike_ind; [| |exact Hs].
  - rewrite Z.pow_0_r, Z.mul_1_l. auto.
  - clear s Hs. intros s Hs IH. rewrite Z.pow_succ_r by lia. intros H.
    replace (2 * 2 ^ s * d) with (2 ^ s * d + 2 ^ s * d) in H by lia.
    assert (0 <= 2 ^ s * d) by (apply Z.mul_nonneg_nonneg; [apply Z.pow_nonneg; lia|lia]).
    rewrite Z.pow_add_r in H by lia.
    replace (a ^ (2 ^ s * d) * a ^ (2 ^ s * d) - 1) with ((a ^ (2 ^ s * d) - 1) * (a ^ (2 ^ s * d) + 1)) in H by ring.
    apply prime_mult in H; [|exact Hp]. destruct H as [H|H].
    + destruct (IH H) as [H'|(r & Hr & H')]; [left; exact H'|right; exists r; split; [lia|exact H']].
    + right. exists s. split; [lia|exact H].
Qed.

(** ** The loop of is_prime *)
Lemma sq_step_eq n t y : sq_step n (t, y) =
  if negb (t =? n - 1) && negb (y =? 1) && negb (y =? n - 1) then
    p ← imul i64 y y; y ← irem i64 p n; Ok (inl (wrap i64 (Z.shiftl t 1), y))
  else Ok (inr (t, y)).
Proof. reflexivity. Qed.

(** The loop stops at the first r with a^(2^r d) = 1 or -1, or at r = s. *)
Lemma sq_loop n a s d : 2 < n < 2 ^ 31 -> 0 <= s -> 0 < d -> n - 1 = 2 ^ s * d ->
  forall fuel r, 0 <= r <= s -> s - r < Z.of_nat fuel ->
  (forall i, 0 <= i < r -> a ^ (2 ^ i * d) mod n <> 1 /\ a ^ (2 ^ i * d) mod n <> n - 1) ->
  exists r', r <= r' <= s /\ rloop fuel (sq_step n) (2 ^ r * d, a ^ (2 ^ r * d) mod n) = Ok (2 ^ r' * d, a ^ (2 ^ r' * d) mod n) /\
    (forall i, 0 <= i < r' -> a ^ (2 ^ i * d) mod n <> 1 /\ a ^ (2 ^ i * d) mod n <> n - 1) /\
    (r' = s \/ a ^ (2 ^ r' * d) mod n = 1 \/ a ^ (2 ^ r' * d) mod n = n - 1).
Proof.
  intros Hn Hs Hd E. induction fuel as [|fuel IH]; intros r Hr Hf Hbef; [lia|].
  cbn [rloop]. rewrite sq_step_eq.
  set (y := a ^ (2 ^ r * d) mod n) in *.
  assert (Hy : 0 <= y < n) by (apply Z.mod_pos_bound; lia).
  assert (Hpr : 0 < 2 ^ r) by (apply Z.pow_pos_nonneg; lia).
  destruct (negb (2 ^ r * d =? n - 1) && negb (y =? 1) && negb (y =? n - 1)) eqn:Ec.
  - rewrite !andb_true_iff, !negb_true_iff, !Z.eqb_neq in Ec. destruct Ec as [[E1 E2] E3].
    assert (Hrs : r < s). { destruct (Z.eq_dec r s); [subst; lia|lia]. }
    assert (Hyy : 0 <= y * y <= 2 ^ 31 * 2 ^ 31) by (clear -Hy Hn; nia). change (2 ^ 31 * 2 ^ 31) with (2 ^ 62) in Hyy.
    rewrite imul_ok by (rewrite i64_range; lia). cbn [mbind res_bind].
    rewrite irem_pos; [|cbn; lia|rewrite i64_range; lia..|lia|lia]. cbn [mbind res_bind].
    assert (Et : 2 ^ (r + 1) * d = 2 * (2 ^ r * d)) by (rewrite Z.pow_add_r by lia; lia).
    assert (Hle : 2 ^ (r + 1) * d <= n - 1).
    { rewrite E. apply Z.mul_le_mono_nonneg_r; [lia|]. apply Z.pow_le_mono_r; lia. }
    rewrite Z.shiftl_mul_pow2 by lia. change (2 ^ 1) with 2.
    replace (2 ^ r * d * 2) with (2 ^ (r + 1) * d) by lia.
    rewrite wrap_i64 by nia.
    replace (y * y mod n) with (a ^ (2 ^ (r + 1) * d) mod n).
    2:{ unfold y. rewrite <- Zmult_mod, <- Z.pow_add_r by nia. f_equal. f_equal. lia. }
    destruct (IH (r + 1)) as (r' & Hr' & -> & H1 & H2); [lia|lia| |].
    + intros i Hi. destruct (Z.eq_dec i r) as [->|]; [split; assumption|]. apply Hbef. lia.
    + exists r'. split; [lia|]. auto.
  - exists r. split; [lia|]. split; [reflexivity|]. split; [exact Hbef|].
    rewrite !andb_false_iff, !negb_false_iff, !Z.eqb_eq in Ec. destruct Ec as [[Ec|Ec]|Ec]; [|auto..].
    left. destruct (Z.eq_dec r s); [assumption|]. exfalso.
    assert (2 ^ r < 2 ^ s) by (apply Z.pow_lt_mono_r; lia). clear -Ec E H Hd. nia.
Qed.

Lemma odd_part_unique s d s' d' : 0 <= s -> 0 <= s' -> Z.odd d = true -> Z.odd d' = true ->
  2 ^ s * d = 2 ^ s' * d' -> s = s' /\ d = d'.
Proof.
  assert (H : forall s d s' d', 0 <= s -> s <= s' -> Z.odd d = true -> Z.odd d' = true -> 2 ^ s * d = 2 ^ s' * d' -> s = s' /\ d = d').
  { clear. intros s d s' d' H1 H2 Hd Hd' E. replace s' with (s + (s' - s)) in E by lia.
    rewrite Z.pow_add_r, <- Z.mul_assoc in E by lia. apply Z.mul_reg_l in E; [|pose proof (Z.pow_pos_nonneg 2 s); lia].
    destruct (Z.eq_dec s s') as [->|Hne]; [rewrite Z.sub_diag, Z.pow_0_r in E; lia|].
    exfalso. replace (s' - s) with (Z.succ (s' - s - 1)) in E by lia. rewrite Z.pow_succ_r in E by lia.
    subst d. rewrite <- Z.mul_assoc, Z.odd_mul in Hd. discriminate. }
  intros Hs Hs' Ho Ho' E. destruct (Z.le_gt_cases s s'); [apply H; auto|].
  destruct (H s' d' s d) as [-> ->]; auto; lia.
Qed.

Lemma passes_base_ok n a s d : 2 < n < 2 ^ 31 -> Z.odd n = true -> 0 <= s -> 0 < d -> Z.odd d = true -> n - 1 = 2 ^ s * d ->
  0 <= a < 100 ->
  exists b, passes_base n d a = Ok b /\ (b = true <-> sprp n a).
Proof.
  intros Hn Hodd Hs Hd Hdo E Ha. unfold passes_base.
  assert (Hps : 0 < 2 ^ s) by (apply Z.pow_pos_nonneg; lia).
  assert (Hdn : d <= n - 1) by nia.
  rewrite wrap_i32 by lia.
  rewrite pow_mod_ok; [|rewrite i64_range; lia..|lia|rewrite i32_range; lia|lia]. cbn [mbind res_bind].
  assert (Hs31 : s < 31).
  { destruct (Z.le_gt_cases 31 s) as [H|]; [|assumption]. pose proof (Z.pow_le_mono_r 2 31 s ltac:(lia) H). nia. }
  destruct (sq_loop n a s d Hn Hs Hd E 65 0) as (r & Hr & Hl & Hbef & Hend); [lia|lia|intros; lia|].
  rewrite Z.pow_0_r, Z.mul_1_l in Hl. rewrite Hl. cbn [mbind res_bind].
  assert (Hpr : 0 < 2 ^ r) by (apply Z.pow_pos_nonneg; lia).
  assert (Hle : 2 ^ r * d <= n - 1).
  { rewrite E. apply Z.mul_le_mono_nonneg_r; [lia|]. apply Z.pow_le_mono_r; lia. }
  rewrite irem_pos; [|cbn; lia|rewrite i64_range; nia|rewrite i64_range; lia|nia|lia]. cbn [mbind res_bind].
  eexists. split; [reflexivity|].
  assert (Hlast : a ^ (2 ^ s * d) mod n <> n - 1).
  { rewrite <- E. rewrite pow_mod_eq_iff by lia. replace (a ^ (n - 1) - (n - 1)) with (a ^ (n - 1) + 1 - n) by lia.
    intros H. apply (no_minus_one n a); [lia|exact Hodd|].
    replace (a ^ (n - 1) + 1) with ((a ^ (n - 1) + 1 - n) + n) by lia. apply Z.divide_add_r; [exact H|apply Z.divide_refl]. }
  assert (Hm1 : forall i, 0 <= i -> a ^ (2 ^ i * d) mod n = n - 1 <-> (n | a ^ (2 ^ i * d) + 1)).
  { intros i Hi. rewrite pow_mod_eq_iff; [|lia| |lia].
    - replace (a ^ (2 ^ i * d) - (n - 1)) with (a ^ (2 ^ i * d) + 1 - n) by lia. split; intros H.
      + replace (a ^ (2 ^ i * d) + 1) with ((a ^ (2 ^ i * d) + 1 - n) + n) by lia. apply Z.divide_add_r; [exact H|apply Z.divide_refl].
      + apply Z.divide_sub_r; [exact H|apply Z.divide_refl].
    - apply Z.mul_nonneg_nonneg; [apply Z.pow_nonneg; lia|lia]. }
  rewrite negb_true_iff, andb_false_iff, negb_false_iff, Z.eqb_eq, Z.eqb_neq. split.
  - intros [H|H].
    + exists s, d. repeat split; try assumption. right. exists r. split; [|apply Hm1; [lia|exact H]].
      destruct (Z.eq_dec r s) as [->|]; [contradiction|lia].
    + assert (r = 0).
      { destruct (Z.eq_dec r 0); [assumption|]. exfalso. apply H. replace r with (Z.succ (r - 1)) by lia.
        rewrite Z.pow_succ_r by lia. rewrite <- Z.mul_assoc, Z.mul_comm. apply Z_mod_mult. }
      subst r. rewrite Z.pow_0_r, Z.mul_1_l in *.
      assert (Hs0 : s <> 0). { intros ->. rewrite Z.pow_0_r, Z.mul_1_l in E. subst d. 
        rewrite Z.odd_sub, Hodd in Hdo. discriminate. }
      exists s, d. repeat split; try assumption.
      destruct Hend as [Hend|[Hend|Hend]]; [lia| |].
      * left. rewrite pow_mod_eq_iff in Hend by lia. exact Hend.
      * right. exists 0. split; [lia|]. apply Hm1; [lia|]. rewrite Z.pow_0_r, Z.mul_1_l. exact Hend.
  - intros (s' & d' & Hs' & Hdo' & Hd' & E' & H).
    destruct (odd_part_unique s d s' d') as [<- <-]; [assumption..|lia|].
    destruct H as [H|(i & Hi & H)].
    + right. assert (r = 0).
      { destruct (Z.eq_dec r 0); [assumption|]. exfalso. destruct (Hbef 0) as [B _]; [lia|]. apply B.
        rewrite Z.pow_0_r, Z.mul_1_l, pow_mod_eq_iff by lia. exact H. }
      subst r. rewrite Z.pow_0_r, Z.mul_1_l. rewrite Zmod_odd, Hdo. discriminate.
    + left. apply Hm1 in H; [|lia].
      destruct (Z.lt_trichotomy i r) as [Hlt|[->|Hgt]]; [|exact H|].
      * destruct (Hbef i) as [_ B]; [lia|]. contradiction.
      * destruct Hend as [Hend|[Hend|Hend]]; [lia| |exact Hend].
        exfalso. assert (H1 : (n | a ^ (2 ^ i * d) - 1)).
        { replace i with (r + (i - r)) by lia. rewrite Z.pow_add_r by lia.
          replace (2 ^ r * 2 ^ (i - r) * d) with (2 ^ r * d * 2 ^ (i - r)) by ring. rewrite Z.pow_mul_r; [|nia|apply Z.pow_nonneg; lia].
          apply dvd_pow_1; [apply Z.pow_nonneg; lia|]. rewrite pow_mod_eq_iff in Hend by (try lia; nia). exact Hend. }
        rewrite Hm1 in H by lia.
        assert (H2 : (n | 2)). { replace 2 with ((a ^ (2 ^ i * d) + 1) - (a ^ (2 ^ i * d) - 1)) by ring. apply Z.divide_sub_r; assumption. }
        apply Z.divide_pos_le in H2; lia.
Qed.

(** What is_prime decides. *)
Definition is_prime_spec (n : Z) : Prop :=
  n = 2 \/ n = 7 \/ n = 61 \/ (2 < n /\ Z.odd n = true /\ sprp n 2 /\ sprp n 7 /\ sprp n 61).

Lemma is_prime_ok n : in_ty i32 n -> exists b, is_prime n = Ok b /\ (b = true <-> is_prime_spec n).
Proof.
  intros Hn. rewrite i32_range in Hn. unfold is_prime, is_prime_spec.
  destruct (Z.leb_spec n 1). { exists false. split; [reflexivity|]. split; [discriminate|]. lia. }
  destruct ((n =? 2) || (n =? 7) || (n =? 61)) eqn:E.
  { exists true. split; [reflexivity|]. split; [|reflexivity]. intros _. rewrite !orb_true_iff, !Z.eqb_eq in E. tauto. }
  rewrite !orb_false_iff, !Z.eqb_neq in E. destruct E as [[E2 E7] E61].
  rewrite irem_pos; [|cbn; lia|rewrite i64_range; lia..|lia|lia]. cbn [mbind res_bind].
  rewrite Zmod_odd. destruct (Z.odd n) eqn:Ho.
  2:{ exists false. split; [reflexivity|]. split; [discriminate|]. intros [?|[?|[?|(_ & ? & _)]]]; try lia; discriminate. }
  change (1 =? 0) with false. cbv iota.
  rewrite isub_ok by (rewrite i64_range; lia). cbn [mbind res_bind].
  destruct (strip_loop i64 2 (fun d => r ← irem i64 d 2; if r =? 0 then d ← idiv i64 d 2; Ok (inl d) else Ok (inr d)))
    with (fuel := 64%nat) (x := n - 1) as (s & d & Hs & Ed & Hd & Hdd & Hl).
  { cbn; lia. } { rewrite i64_range; lia. } { lia. } { reflexivity. } { rewrite i64_range; lia. }
  { change (2 ^ Z.of_nat 64) with (2 ^ 64). lia. }
  unfold strip_twos. rewrite Hl. cbn [mbind res_bind].
  assert (Hdo : Z.odd d = true).
  { rewrite <- Z.negb_even, negb_true_iff. destruct (Z.even d) eqn:Ee; [|reflexivity]. exfalso. apply Hdd.
    apply Z.even_spec in Ee as [c ->]. exists c. lia. }
  cbn [rfor].
  destruct (passes_base_ok n 2 s d) as (b1 & -> & H1); [lia|assumption..|lia|]. cbn [mbind res_bind].
  assert (D : forall P Q R S : Prop, (S <-> (P /\ Q /\ R)) -> (S <-> (n = 2 \/ n = 7 \/ n = 61 \/ (2 < n /\ true = true /\ P /\ Q /\ R)))) by (intros; intuition lia).
  destruct b1.
  2:{ exists false. cbn [mbind res_bind]. split; [reflexivity|]. apply D. intuition congruence. }
  destruct (passes_base_ok n 7 s d) as (b2 & -> & H2); [lia|assumption..|lia|]. cbn [mbind res_bind].
  destruct b2.
  2:{ exists false. cbn [mbind res_bind]. split; [reflexivity|]. apply D. intuition congruence. }
  destruct (passes_base_ok n 61 s d) as (b3 & -> & H3); [lia|assumption..|lia|]. cbn [mbind res_bind].
  exists b3. split; [reflexivity|]. apply D. intuition congruence.
Qed.

Lemma prime_61 : prime 61.
Proof.
  apply prime_alt. split; [lia|]. intros k Hk Hd. apply Z.mod_divide in Hd; [|lia].
  assert (H : Forall (fun k => 61 mod k <> 0) (seqZ 2 59)) by (apply (bool_decide_unpack _); vm_compute; exact I).
  rewrite Forall_forall in H. apply (H k); [|exact Hd]. apply elem_of_seqZ. lia.
Qed.
Lemma prime_7 : prime 7.
Proof.
  apply prime_alt. split; [lia|]. intros k Hk Hd. apply Z.mod_divide in Hd; [|lia].
  assert (H : Forall (fun k => 7 mod k <> 0) (seqZ 2 5)) by (apply (bool_decide_unpack _); vm_compute; exact I).
  rewrite Forall_forall in H. apply (H k); [|exact Hd]. apply elem_of_seqZ. lia.
Qed.

Lemma prime_spec n : prime n -> is_prime_spec n.
Proof.
  intros Hp. pose proof (prime_ge_2 n Hp). unfold is_prime_spec.
  destruct (Z.eq_dec n 2); [auto|]. destruct (Z.eq_dec n 7); [auto|]. destruct (Z.eq_dec n 61); [auto|].
  right. right. right. split; [lia|].
  assert (Ho : Z.odd n = true).
  { rewrite <- Z.negb_even, negb_true_iff. destruct (Z.even n) eqn:Ee; [|reflexivity]. exfalso.
    apply Z.even_spec in Ee as [c ->]. assert (H2 : (2 | 2 * c)) by (exists c; lia).
    apply (prime_div_prime 2) in H2; [lia|apply prime_2|exact Hp]. }
  split; [exact Ho|].
  repeat split; apply prime_sprp; try assumption; intros Hd; apply (prime_div_prime n) in Hd;
    try assumption; try lia; [apply prime_2|apply prime_7|apply prime_61].
Qed.
Close Scope Z_scope.
