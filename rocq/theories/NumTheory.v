(** Elementary number theory over Z: Fermat's little theorem, the root bound for monic polynomials
    modulo a prime, and the existence of primitive roots. *)
From Coq Require Import Znumtheory Zpow_facts.
From stdpp Require Import prelude.
Open Scope Z_scope.

Lemma pow_mod_eq_iff n a k v : 1 < n -> 0 <= k -> 0 <= v < n -> a ^ k mod n = v <-> (n | a ^ k - v).
Proof.
  intros Hn Hk Hv. split.
  - intros <-. apply Z.mod_divide; [lia|]. rewrite Zminus_mod_idemp_r, Z.sub_diag. reflexivity.
  - intros H. apply Z.mod_divide in H; [|lia]. 
    rewrite <- (Z.mod_small v n) by lia.
    destruct (proj1 (Z.mod_divide _ n ltac:(lia)) H) as [c Hc].
    replace (a ^ k) with (v + c * n) by lia. apply Z_mod_plus_full.
Qed.

Lemma exists_prime_divisor n : 1 < n -> exists p, prime p /\ (p | n).
Proof.
  intros H. assert (exists k, n <= Z.of_nat k) as [k Hk] by (exists (Z.to_nat n); lia).
  revert n H Hk. induction k as [|k IH]; intros n H Hk; [lia|].
  destruct (prime_dec n) as [Hp|Hp]; [exists n; split; [exact Hp|apply Z.divide_refl]|].
  destruct (not_prime_divide n H Hp) as (m & Hm & Hd).
  destruct (IH m) as (p & Hpp & Hpd); [lia|lia|]. exists p. split; [exact Hpp|]. eapply Z.divide_trans; eassumption.
Qed.

Lemma dvd_pow_1 n b k : 0 <= k -> (n | b - 1) -> (n | b ^ k - 1).
Proof.
  intros Hk Hd. pattern k. apply natlike_ind; [exists 0; rewrite Z.pow_0_r; lia| |exact Hk].
  intros x Hx IH. rewrite Z.pow_succ_r by lia. replace (b * b ^ x - 1) with (b * (b ^ x - 1) + (b - 1)) by lia.
  apply Z.divide_add_r; [apply Z.divide_mul_r|]; assumption.
Qed.

(** Exponents with b^k = 1 (mod n) are closed under gcd (for b invertible). *)
Lemma order_gcd n b i j : 1 < n -> 0 <= i -> 0 <= j -> rel_prime b n -> (n | b ^ i - 1) -> (n | b ^ j - 1) -> (n | b ^ (Z.gcd i j) - 1).
Proof.
  intros Hn Hi Hj Hr. assert (exists k, i + j <= Z.of_nat k) as [k Hk] by (exists (Z.to_nat (i + j)); lia).
  revert i j Hi Hj Hk. induction k as [|k IH]; intros i j Hi Hj Hk H1 H2.
  - assert (i = 0) as -> by lia. assert (j = 0) as -> by lia. exists 0. cbn. reflexivity.
  - assert (Hsub : forall i j, 0 <= i <= j -> (n | b ^ i - 1) -> (n | b ^ j - 1) -> (n | b ^ (j - i) - 1)).
    { clear -Hn Hr. intros i j Hij H1 H2. apply Gauss with (b ^ i).
      - replace (b ^ i * (b ^ (j - i) - 1)) with (b ^ i * b ^ (j - i) - b ^ i) by ring.
        rewrite <- Z.pow_add_r by lia. replace (i + (j - i)) with j by lia.
        replace (b ^ j - b ^ i) with ((b ^ j - 1) - (b ^ i - 1)) by ring. apply Z.divide_sub_r; assumption.
      - apply rel_prime_sym, rel_prime_sym. apply rel_prime_Zpower_r; [lia|]. apply rel_prime_sym. exact Hr. }
    destruct (Z.eq_dec i 0) as [->|]; [rewrite Z.gcd_0_l, Z.abs_eq by lia; assumption|].
    destruct (Z.eq_dec j 0) as [->|]; [rewrite Z.gcd_0_r, Z.abs_eq by lia; assumption|].
    destruct (Z.le_gt_cases i j).
    + rewrite <- Z.gcd_sub_diag_r. apply IH; [lia..|assumption|]. apply Hsub; [lia|assumption..].
    + rewrite Z.gcd_comm, <- Z.gcd_sub_diag_r. apply IH; [lia..|assumption|]. apply Hsub; [lia|assumption..].
Qed.

(** ** Fermat's little theorem *)
Lemma prod_map_mod p a l : 0 < p -> foldr Z.mul 1 (map (fun x => a * x mod p) l) mod p = (a ^ Z.of_nat (length l) * foldr Z.mul 1 l) mod p.
Proof.
  intros Hp. induction l as [|x l IH]; [reflexivity|]. cbn [map foldr length].
  rewrite Nat2Z.inj_succ, Z.pow_succ_r by lia. rewrite Z.mul_mod, IH, Z.mod_mod by lia. rewrite <- Z.mul_mod by lia. f_equal. ring.
Qed.

Lemma prod_not_div p l : prime p -> (forall x, x ∈ l -> ~ (p | x)) -> ~ (p | foldr Z.mul 1 l).
Proof.
  intros Hp. induction l as [|x l IH]; intros H; cbn [foldr].
  - intros H1. apply Z.divide_1_r_nonneg in H1; pose proof (prime_ge_2 p Hp); lia.
  - intros Hd. apply prime_mult in Hd as [Hd|Hd]; [| |exact Hp].
    + apply (H x); [left|exact Hd].
    + apply IH; [|exact Hd]. intros y Hy. apply H. right. exact Hy.
Qed.

Lemma mod_0_div p x : 0 < p -> x mod p = 0 <-> (p | x).
Proof. intros H. apply Z.mod_divide. lia. Qed.

Lemma mod_eq_div p x y : 0 < p -> x mod p = y mod p <-> (p | x - y).
Proof.
  intros H. rewrite <- mod_0_div by exact H. split; intros E.
  - rewrite Zminus_mod, E, Z.sub_diag. reflexivity.
  - apply mod_0_div in E; [|exact H]. destruct E as [c Hc]. replace x with (y + c * p) by lia. apply Z_mod_plus_full.
Qed.

Lemma not_div_range p x : 1 <= x < p -> ~ (p | x).
Proof. intros Hx Hd. apply Z.divide_pos_le in Hd; lia. Qed.

Lemma small_div_0 p x : - p < x < p -> (p | x) -> x = 0.
Proof. intros Hx [c Hc]. assert (c = 0) by nia. subst c. lia. Qed.

Lemma fermat_Z p a : prime p -> ~ (p | a) -> a ^ (p - 1) mod p = 1.
Proof.
  intros Hp Ha. pose proof (prime_ge_2 p Hp). set (l := seqZ 1 (p - 1)).
  assert (Hl : forall x, x ∈ l <-> 1 <= x < p) by (intros x; unfold l; rewrite elem_of_seqZ; lia).
  assert (Hperm : Permutation (map (fun x => a * x mod p) l) l).
  { apply submseteq_Permutation_length_eq; [rewrite map_length; reflexivity|].
    apply NoDup_submseteq.
    - apply NoDup_fmap_2_strong; [|apply NoDup_seqZ]. intros x y Hx Hy E. apply Hl in Hx. apply Hl in Hy.
      apply mod_eq_div in E; [|lia]. rewrite <- Z.mul_sub_distr_l in E. apply prime_mult in E as [E|E]; [contradiction| |exact Hp].
      apply small_div_0 in E; lia.
    - intros y Hy. apply elem_of_list_fmap in Hy as (x & -> & Hx). apply Hl in Hx. apply Hl.
      pose proof (Z.mod_pos_bound (a * x) p ltac:(lia)). enough (a * x mod p <> 0) by lia.
      intros E. apply mod_0_div in E; [|lia]. apply prime_mult in E as [E|E]; [contradiction| |exact Hp].
      apply (not_div_range p x); assumption. }
  assert (Hprod : foldr Z.mul 1 (map (fun x => a * x mod p) l) = foldr Z.mul 1 l).
  { clear -Hperm. induction Hperm; cbn [foldr]; nia. }
  pose proof (prod_map_mod p a l ltac:(lia)) as E. rewrite Hprod in E.
  replace (Z.of_nat (length l)) with (p - 1) in E by (unfold l; rewrite seqZ_length; lia).
  symmetry in E. apply mod_eq_div in E; [|lia].
  replace (a ^ (p - 1) * foldr Z.mul 1 l - foldr Z.mul 1 l) with ((a ^ (p - 1) - 1) * foldr Z.mul 1 l) in E by ring.
  apply prime_mult in E as [E|E]; [| |exact Hp].
  - apply pow_mod_eq_iff; [lia..|exact E].
  - exfalso. revert E. apply prod_not_div; [exact Hp|]. intros x Hx. apply Hl in Hx. apply not_div_range. exact Hx.
Qed.

(** ** A monic polynomial of degree n has at most n roots modulo a prime *)
(** Horner evaluation with leading coefficient [acc]. *)
Definition horner (acc : Z) (c : list Z) (x : Z) : Z := foldl (fun r a => r * x + a) acc c.
Fixpoint synth (acc : Z) (c : list Z) (r : Z) : list Z :=
  match c with
  | [] => []
  | a :: c' => match c' with [] => [] | _ => (acc * r + a) :: synth (acc * r + a) c' r end
  end.

Lemma horner_add c : forall acc d x, horner (acc + d) c x = horner acc c x + d * x ^ Z.of_nat (length c).
Proof.
  induction c as [|a c IH]; intros acc d x; [cbn; lia|]. unfold horner in *. cbn [foldl length].
  replace ((acc + d) * x + a) with ((acc * x + a) + d * x) by ring. rewrite IH, Nat2Z.inj_succ, Z.pow_succ_r by lia. ring.
Qed.

Lemma synth_length c : forall acc r, length (synth acc c r) = pred (length c).
Proof.
  induction c as [|a [|b c] IH]; intros acc r; [reflexivity..|].
  change (synth acc (a :: b :: c) r) with ((acc * r + a) :: synth (acc * r + a) (b :: c) r). cbn [length pred] in *. rewrite IH. reflexivity.
Qed.

Lemma synth_spec c : forall acc r x, c <> [] -> horner acc c x = (x - r) * horner acc (synth acc c r) x + horner acc c r.
Proof.
  induction c as [|a [|b c] IH]; intros acc r x Hne; [congruence|cbn; ring|].
  change (horner acc (a :: b :: c) x) with (horner (acc * x + a) (b :: c) x).
  change (horner acc (a :: b :: c) r) with (horner (acc * r + a) (b :: c) r).
  change (synth acc (a :: b :: c) r) with ((acc * r + a) :: synth (acc * r + a) (b :: c) r).
  change (horner acc ((acc * r + a) :: synth (acc * r + a) (b :: c) r) x) with (horner (acc * x + (acc * r + a)) (synth (acc * r + a) (b :: c) r) x).
  replace (acc * x + a) with ((acc * r + a) + acc * (x - r)) by ring. rewrite (horner_add _ (acc * r + a)), (IH _ r) by discriminate.
  replace (acc * x + (acc * r + a)) with ((acc * r + a) + acc * x) by ring. rewrite (horner_add _ (acc * r + a) (acc * x)), synth_length. cbn [length pred].
  rewrite Nat2Z.inj_succ, Z.pow_succ_r by lia. ring.
Qed.

Lemma root_bound p : prime p -> forall n c l, length c = n -> NoDup l -> (forall x, x ∈ l -> 0 <= x < p /\ (p | horner 1 c x)) -> (length l <= n)%nat.
Proof.
  intros Hp. pose proof (prime_ge_2 p Hp). induction n as [|n IH]; intros c l Hc Hnd Hl.
  - destruct l as [|r l]; [cbn; lia|]. exfalso. destruct (Hl r) as [_ Hd]; [left|]. destruct c; [|discriminate]. cbn in Hd.
    apply Z.divide_1_r_nonneg in Hd; lia.
  - destruct l as [|r l]; [cbn; lia|]. cbn [length]. apply le_n_S.
    apply NoDup_cons in Hnd as [Hr Hnd]. destruct (Hl r) as [Hrb Hrd]; [left|].
    apply (IH (synth 1 c r)); [rewrite synth_length, Hc; reflexivity|exact Hnd|].
    intros x Hx. destruct (Hl x) as [Hxb Hxd]; [right; exact Hx|]. split; [exact Hxb|].
    rewrite (synth_spec c 1 r x) in Hxd by (intros ->; discriminate).
    assert (Hd : (p | (x - r) * horner 1 (synth 1 c r) x)).
    { replace ((x - r) * horner 1 (synth 1 c r) x) with ((x - r) * horner 1 (synth 1 c r) x + horner 1 c r - horner 1 c r) by ring.
      apply Z.divide_sub_r; assumption. }
    apply prime_mult in Hd as [Hd|Hd]; [|exact Hd|exact Hp].
    apply small_div_0 in Hd; [|lia]. exfalso. apply Hr. replace r with x by lia. exact Hx.
Qed.

Lemma horner_zeros n : forall acc x, horner acc (replicate n 0) x = acc * x ^ Z.of_nat n.
Proof.
  induction n as [|n IH]; intros acc x; [cbn; lia|]. unfold horner in *. cbn [replicate foldl].
  rewrite IH, Nat2Z.inj_succ, Z.pow_succ_r by lia. ring.
Qed.

Lemma unity_roots p n l : prime p -> 1 <= n -> NoDup l -> (forall x, x ∈ l -> 0 <= x < p /\ (p | x ^ n - 1)) -> Z.of_nat (length l) <= n.
Proof.
  intros Hp Hn Hnd Hl. rewrite <- (Z2Nat.id n) by lia. apply inj_le.
  apply (root_bound p Hp _ (replicate (Z.to_nat (n - 1)) 0 ++ [-1]) l); [|exact Hnd|].
  - rewrite app_length, replicate_length. cbn [length]. lia.
  - intros x Hx. destruct (Hl x Hx) as [Hb Hd]. split; [exact Hb|].
    unfold horner. rewrite foldl_app. fold (horner 1 (replicate (Z.to_nat (n - 1)) 0) x). rewrite horner_zeros. cbn [foldl].
    rewrite Z2Nat.id by lia. replace (1 * x ^ (n - 1) * x + -1) with (x ^ (Z.succ (n - 1)) - 1) by (rewrite Z.pow_succ_r by lia; ring).
    replace (Z.succ (n - 1)) with n by lia. exact Hd.
Qed.

(** Some residue is not an n-th root of unity when n < p - 1. *)
Lemma non_root p n : prime p -> 1 <= n < p - 1 -> exists x, 1 <= x < p /\ ~ (p | x ^ n - 1).
Proof.
  intros Hp Hn. assert (Hdec : forall x, Decision ((p | x ^ n - 1))).
  { intros x. destruct (Zdivide_dec p (x ^ n - 1)); [left|right]; assumption. }
  destruct (decide (Exists (fun x => ~ (p | x ^ n - 1)) (seqZ 1 (p - 1)))) as [H|H].
  - apply Exists_exists in H as (x & Hx & Hd). apply elem_of_seqZ in Hx. exists x. split; [lia|exact Hd].
  - exfalso. enough (Z.of_nat (length (seqZ 1 (p - 1))) <= n) by (rewrite seqZ_length in *; lia).
    apply (unity_roots p); [exact Hp|lia|apply NoDup_seqZ|]. intros x Hx. split; [apply elem_of_seqZ in Hx; lia|].
    destruct (Hdec x) as [|Hn']; [assumption|]. exfalso. apply H. apply Exists_exists. exists x. split; assumption.
Qed.

(** ** Primitive roots *)
Lemma divide_prime_pow q e d : prime q -> 0 <= e -> 0 <= d -> (d | q ^ e) -> exists j, 0 <= j <= e /\ d = q ^ j.
Proof.
  intros Hq He. revert d. pattern e. apply natlike_ind; [| |exact He].
  - intros d Hd H. rewrite Z.pow_0_r in H. exists 0. split; [lia|]. rewrite Z.pow_0_r. apply Z.divide_1_r_nonneg; assumption.
  - clear e He. intros e He IH d Hd H. pose proof (prime_ge_2 q Hq). destruct (Zdivide_dec q d) as [[d' ->]|Hn].
    + rewrite Z.pow_succ_r, (Z.mul_comm q) in H by lia. apply Z.mul_divide_cancel_r in H; [|lia].
      destruct (IH d') as (j & Hj & ->); [nia|exact H|]. exists (Z.succ j). rewrite Z.pow_succ_r by lia. split; [lia|ring].
    + rewrite Z.pow_succ_r in H by lia. apply Gauss in H; [|apply rel_prime_sym, prime_rel_prime; assumption].
      destruct (IH d Hd H) as (j & Hj & ->). exists j. split; [lia|reflexivity].
Qed.

Lemma prime_part q d : prime q -> 0 < d -> exists e d', 0 <= e /\ 0 < d' /\ ~ (q | d') /\ d = q ^ e * d'.
Proof.
  intros Hq H. pose proof (prime_ge_2 q Hq). assert (exists k, d <= Z.of_nat k) as [k Hk] by (exists (Z.to_nat d); lia).
  revert d H Hk. induction k as [|k IH]; intros d H Hk; [lia|].
  destruct (Zdivide_dec q d) as [[c ->]|Hn]; [|exists 0, d; rewrite Z.pow_0_r; repeat split; lia || assumption].
  destruct (IH c) as (e & d' & He & Hd & Hnd & ->); [nia..|].
  exists (Z.succ e), d'. rewrite Z.pow_succ_r by lia. repeat split; lia || assumption.
Qed.

(** g has order d modulo p: g^d = 1 and every exponent giving 1 is a multiple of d. *)
Definition has_order (p g d : Z) : Prop := (p | g ^ d - 1) /\ forall k, 0 <= k -> (p | g ^ k - 1) -> (d | k).

Lemma prime_pow_order p q e : prime p -> prime q -> 1 <= e -> (q ^ e | p - 1) -> exists y, ~ (p | y) /\ has_order p y (q ^ e).
Proof.
  intros Hp Hq He [c Hc]. pose proof (prime_ge_2 p Hp). pose proof (prime_ge_2 q Hq).
  assert (Hqe : q ^ e = q ^ (e - 1) * q).
  { rewrite Z.mul_comm, <- Z.pow_succ_r by lia. f_equal. lia. }
  assert (0 < q ^ (e - 1)) by (apply Z.pow_pos_nonneg; lia). assert (0 < c) by nia.
  destruct (non_root p (c * q ^ (e - 1))) as (x & Hx & Hnx); [exact Hp|nia|].
  assert (Hxp : ~ (p | x)) by (apply not_div_range; exact Hx).
  assert (Hy : ~ (p | x ^ c)).
  { intros Hd. apply Hxp. clear -Hd Hp H2. assert (0 <= c) by lia. revert Hd. pattern c. apply natlike_ind; [| |assumption].
    - intros Hd. rewrite Z.pow_0_r in Hd. apply Z.divide_trans with 1; [exact Hd|apply Z.divide_1_l].
    - intros k Hk IH Hd. rewrite Z.pow_succ_r in Hd by lia. apply prime_mult in Hd as [Hd|Hd]; [exact Hd|apply IH, Hd|exact Hp]. }
  exists (x ^ c). split; [exact Hy|].
  assert (Hone : (p | (x ^ c) ^ (q ^ e) - 1)).
  { rewrite <- Z.pow_mul_r by lia. rewrite <- Hc. apply pow_mod_eq_iff; [lia..|]. apply fermat_Z; assumption. }
  split; [exact Hone|]. intros k Hk Hd.
  assert (Hg : (p | (x ^ c) ^ (Z.gcd k (q ^ e)) - 1)).
  { apply order_gcd; try assumption; [lia|lia|]. apply rel_prime_sym, prime_rel_prime; assumption. }
  destruct (divide_prime_pow q e (Z.gcd k (q ^ e))) as (j & Hj & Ej); [exact Hq|lia|apply Z.gcd_nonneg|apply Z.gcd_divide_r|].
  destruct (Z.eq_dec j e) as [->|Hne]; [rewrite <- Ej; apply Z.gcd_divide_l|].
  exfalso. apply Hnx. rewrite Ej in Hg. rewrite Z.pow_mul_r by lia.
  replace (q ^ (e - 1)) with (q ^ j * q ^ (e - 1 - j)) by (rewrite <- Z.pow_add_r by lia; f_equal; lia).
  rewrite Z.pow_mul_r by (try lia; apply Z.pow_nonneg; lia). apply dvd_pow_1; [apply Z.pow_nonneg; lia|exact Hg].
Qed.

Lemma pow_pow_1 p g a b : 0 <= a -> 0 <= b -> (p | g ^ a - 1) -> (p | g ^ (a * b) - 1).
Proof. intros Ha Hb H. rewrite Z.pow_mul_r by lia. apply dvd_pow_1; assumption. Qed.

Lemma order_mul p g h a b : prime p -> 0 < a -> 0 < b -> rel_prime a b -> has_order p g a -> has_order p h b -> has_order p (g * h) (a * b).
Proof.
  intros Hp Ha Hb Hr [Hg1 Hg2] [Hh1 Hh2].
  assert (Hmul : forall x y, (p | x - 1) -> (p | y - 1) -> (p | x * y - 1)).
  { intros x y Hx Hy. replace (x * y - 1) with (x * (y - 1) + (x - 1)) by ring. apply Z.divide_add_r; [apply Z.divide_mul_r|]; assumption. }
  assert (Hquot : forall x y, (p | x - 1) -> (p | x * y - 1) -> (p | y - 1)).
  { intros x y Hx Hxy. replace (y - 1) with ((x * y - 1) - y * (x - 1)) by ring. apply Z.divide_sub_r; [|apply Z.divide_mul_r]; assumption. }
  split.
  - rewrite Z.pow_mul_l. apply Hmul; [apply pow_pow_1; lia || assumption|]. rewrite Z.mul_comm. apply pow_pow_1; lia || assumption.
  - intros k Hk Hd.
    assert (Hbk : (b | k)).
    { apply Gauss with a; [|apply rel_prime_sym; exact Hr]. apply Hh2; [nia|].
      apply (Hquot (g ^ (a * k))); [apply pow_pow_1; lia || assumption|]. rewrite <- Z.pow_mul_l, (Z.mul_comm a k). apply pow_pow_1; lia || assumption. }
    assert (Hak : (a | k)).
    { apply Gauss with b; [|exact Hr]. apply Hg2; [nia|].
      apply (Hquot (h ^ (b * k))); [apply pow_pow_1; lia || assumption|]. rewrite (Z.mul_comm (h ^ _)), <- Z.pow_mul_l, (Z.mul_comm b k). apply pow_pow_1; lia || assumption. }
    destruct Hak as [c ->]. rewrite Z.mul_comm. apply Z.mul_divide_mono_r. apply Gauss with a; [rewrite Z.mul_comm; exact Hbk|apply rel_prime_sym; exact Hr].
Qed.

Lemma order_exists p : prime p -> forall d, 0 < d -> (d | p - 1) -> exists g, ~ (p | g) /\ has_order p g d.
Proof.
  intros Hp d H. pose proof (prime_ge_2 p Hp). assert (exists k, d <= Z.of_nat k) as [k Hk] by (exists (Z.to_nat d); lia).
  revert d H Hk. induction k as [|k IH]; intros d H Hk Hd; [lia|].
  destruct (Z.eq_dec d 1) as [->|Hne].
  { exists 1. split; [intros H1; apply Z.divide_1_r_nonneg in H1; lia|]. split; [exists 0; reflexivity|]. intros. apply Z.divide_1_l. }
  destruct (exists_prime_divisor d) as (q & Hq & Hqd); [lia|]. pose proof (prime_ge_2 q Hq).
  destruct (prime_part q d Hq H) as (e & d' & He & Hd' & Hnd & ->).
  assert (1 <= e). { destruct (Z.eq_dec e 0) as [->|]; [|lia]. exfalso. apply Hnd. rewrite Z.pow_0_r, Z.mul_1_l in Hqd. exact Hqd. }
  assert (2 <= q ^ e). { replace e with (Z.succ (e - 1)) by lia. rewrite Z.pow_succ_r by lia. assert (0 < q ^ (e - 1)) by (apply Z.pow_pos_nonneg; lia). nia. }
  destruct (IH d') as (g & Hg & Hgo); [lia|nia|eapply Z.divide_trans; [apply Z.divide_factor_r|exact Hd]|].
  destruct (prime_pow_order p q e) as (y & Hy & Hyo); [assumption..|eapply Z.divide_trans; [apply Z.divide_factor_l|exact Hd]|].
  exists (y * g). split; [intros Hx; apply prime_mult in Hx as [Hx|Hx]; [contradiction..|exact Hp]|].
  apply order_mul; try assumption; [lia|]. apply rel_prime_sym, rel_prime_Zpower_r; [lia|]. apply rel_prime_sym, prime_rel_prime; assumption.
Qed.

(** A primitive root exists: no smaller positive power is 1. *)
Lemma prim_root_Z p : prime p -> exists g, 0 < g < p /\ forall k, 0 <= k -> g ^ k mod p = 1 -> (p - 1 | k).
Proof.
  intros Hp. pose proof (prime_ge_2 p Hp). destruct (order_exists p Hp (p - 1)) as (g & Hg & _ & Ho); [lia|apply Z.divide_refl|].
  exists (g mod p). pose proof (Z.mod_pos_bound g p ltac:(lia)).
  assert (g mod p <> 0) by (intros E; apply Hg, mod_0_div; [lia|exact E]). split; [lia|].
  intros k Hk E. apply Ho; [exact Hk|]. apply pow_mod_eq_iff; [lia..|]. rewrite <- E. apply Zpower_mod. lia.
Qed.
Close Scope Z_scope.
