(** Composite numbers that pass the strong test to bases 2, 7 and 61: what their prime factors must satisfy.
    Plain number theory over Z, used by PspSound.v. *)
From Coq Require Import Znumtheory Zpow_facts.
From stdpp Require Import prelude.
From Verif Require Import IMathSpec NumTheory.
Open Scope Z_scope.

(** Exponents m with 2^m = 7^m = 61^m = 1 (mod q). *)
Definition E3 (q m : Z) : Prop := (q | 2 ^ m - 1) /\ (q | 7 ^ m - 1) /\ (q | 61 ^ m - 1).

(** An odd number below 2^31 passing the three tests. *)
Definition good (n : Z) : Prop := 1 < n < 2 ^ 31 /\ Z.odd n = true /\ sprp n 2 /\ sprp n 7 /\ sprp n 61.

Lemma dvd_m1_sq n x : (n | x + 1) -> (n | x * x - 1).
Proof. intros H. replace (x * x - 1) with ((x + 1) * (x - 1)) by ring. apply Z.divide_mul_l, H. Qed.

Lemma pow2_twice x r d : 0 <= r -> 0 <= d -> x ^ (2 ^ (r + 1) * d) = x ^ (2 ^ r * d) * x ^ (2 ^ r * d).
Proof. intros Hr Hd. rewrite <- Z.pow_add_r by nia. f_equal. rewrite Z.pow_add_r by lia. ring. Qed.

(** The exponent e = 2^i d of the strong test, d odd, with the test's alternative up to e. *)
Definition upto (n a e : Z) : Prop :=
  exists i d, 0 <= i /\ Z.odd d = true /\ 0 < d /\ e = 2 ^ i * d /\
    ((n | a ^ d - 1) \/ exists r, 0 <= r <= i /\ (n | a ^ (2 ^ r * d) + 1)).

Lemma sprp_upto n a : 1 < n -> Z.odd n = true -> sprp n a -> upto n a ((n - 1) / 2).
Proof.
  intros Hn Ho (s & d & Hs & Hd & Hd0 & Hsd & H).
  assert (1 <= s).
  { destruct (Z.eq_dec s 0) as [->|]; [|lia]. exfalso. rewrite Z.pow_0_r, Z.mul_1_l in Hsd. subst d.
    rewrite Z.odd_sub, Ho in Hd. discriminate. }
  exists (s - 1), d. split; [lia|]. split; [exact Hd|]. split; [exact Hd0|]. split.
  - rewrite Hsd. replace s with (s - 1 + 1) at 1 by lia. rewrite Z.pow_add_r by lia.
    replace (2 ^ (s - 1) * 2 ^ 1 * d) with (2 ^ (s - 1) * d * 2) by ring. apply Z.div_mul. lia.
  - destruct H as [H|(r & Hr & H)]; [left; exact H|]. right. exists r. split; [lia|exact H].
Qed.

Lemma upto_one n a e : upto n a e -> (n | a ^ e - 1) \/ (n | a ^ e + 1).
Proof.
  intros (i & d & Hi & Hd & Hd0 & -> & H). destruct H as [H|(r & Hr & H)].
  - left. rewrite Z.mul_comm, Z.pow_mul_r by lia. apply dvd_pow_1; [lia|exact H].
  - destruct (Z.eq_dec r i) as [->|]; [right; exact H|]. left.
    replace i with (r + 1 + (i - r - 1)) by lia. rewrite Z.pow_add_r by lia.
    replace (2 ^ (r + 1) * 2 ^ (i - r - 1) * d) with (2 ^ (r + 1) * d * 2 ^ (i - r - 1)) by ring.
    rewrite Z.pow_mul_r by nia. apply dvd_pow_1; [lia|].
    rewrite pow2_twice by lia. apply dvd_m1_sq, H.
Qed.

Lemma upto_step n a e : upto n a e ->
  (n | a ^ e + 1) \/ ((n | a ^ e - 1) /\ (Z.odd e = true \/ upto n a (e / 2))).
Proof.
  intros U. pose proof (upto_one n a e U) as H1. destruct U as (i & d & Hi & Hd & Hd0 & He & H).
  destruct (Z.eq_dec i 0) as [->|Hi0].
  - assert (e = d) as -> by (rewrite He; lia). destruct H1; [right|left]; auto.
  - destruct H1 as [H1|H1]; [|left; exact H1].
    assert (e / 2 = 2 ^ (i - 1) * d) as Eh.
    { rewrite He. replace i with (i - 1 + 1) at 1 by lia. rewrite Z.pow_add_r by lia.
      replace (2 ^ (i - 1) * 2 ^ 1 * d) with (2 ^ (i - 1) * d * 2) by ring. apply Z.div_mul. lia. }
    destruct H as [H|(r & Hr & H)].
    + right. split; [exact H1|]. right. exists (i - 1), d. repeat split; [lia|assumption..|]. left. exact H.
    + destruct (Z.eq_dec r i) as [->|].
      * left. rewrite He. exact H.
      * right. split; [exact H1|]. right. exists (i - 1), d. repeat split; [lia|assumption..|].
        right. exists r. split; [lia|exact H].
Qed.

Lemma sprp_fermat n a : 1 < n -> Z.odd n = true -> sprp n a -> (n | a ^ (n - 1) - 1).
Proof.
  intros Hn Ho H. apply sprp_upto in H; [|assumption..]. apply upto_one in H.
  assert (n - 1 = (n - 1) / 2 * 2) as ->.
  { apply Z.odd_spec in Ho as [m Hm]. replace (n - 1) with (m * 2) by lia. rewrite Z.div_mul by lia. reflexivity. }
  assert (0 <= (n - 1) / 2) by (apply Z.div_pos; lia).
  rewrite Z.pow_mul_r by lia. rewrite Z.pow_2_r.
  destruct H as [H|H]; [|apply dvd_m1_sq, H].
  replace (a ^ ((n - 1) / 2) * a ^ ((n - 1) / 2) - 1) with ((a ^ ((n - 1) / 2) - 1) * (a ^ ((n - 1) / 2) + 1)) by ring.
  apply Z.divide_mul_l, H.
Qed.

Lemma fermat_coprime n q a : 1 < n -> prime q -> (q | n) -> (n | a ^ (n - 1) - 1) -> ~ (q | a).
Proof.
  intros Hn Hq Hd H Ha. assert (q | a ^ (n - 1)) as H1.
  { replace (n - 1) with (Z.succ (n - 2)) by lia. rewrite Z.pow_succ_r by lia. apply Z.divide_mul_l, Ha. }
  assert (q | 1) as H2.
  { replace 1 with (a ^ (n - 1) - (a ^ (n - 1) - 1)) by ring. apply Z.divide_sub_r; [exact H1|].
    apply Z.divide_trans with n; assumption. }
  apply Z.divide_1_r_nonneg in H2; destruct Hq; lia.
Qed.

Lemma good_fermat n : good n -> (n | 2 ^ (n - 1) - 1) /\ (n | 7 ^ (n - 1) - 1) /\ (n | 61 ^ (n - 1) - 1).
Proof. intros (H & Ho & H2 & H7 & H61). split; [|split]; apply sprp_fermat; try assumption; lia. Qed.

Definition coprime3 (q : Z) : Prop := ~ (q | 2) /\ ~ (q | 7) /\ ~ (q | 61).

Lemma good_coprime3 n q : good n -> prime q -> (q | n) -> coprime3 q.
Proof.
  intros G Hq Hd. destruct (good_fermat n G) as (H2 & H7 & H61). destruct G as (Hn & _).
  split; [|split]; eapply fermat_coprime; try eassumption; lia.
Qed.

Lemma good_E3 n q : good n -> (q | n) -> E3 q (n - 1).
Proof.
  intros G Hd. destruct (good_fermat n G) as (H2 & H7 & H61).
  split; [|split]; apply Z.divide_trans with n; assumption.
Qed.

Lemma E3_fermat q : prime q -> coprime3 q -> E3 q (q - 1).
Proof.
  intros Hq (H2 & H7 & H61). assert (1 < q) by (destruct Hq; lia).
  assert (HF : forall a, ~ (q | a) -> (q | a ^ (q - 1) - 1)).
  { intros a Ha. apply pow_mod_eq_iff; [lia..|]. apply fermat_Z; assumption. }
  split; [|split]; apply HF; assumption.
Qed.

Lemma E3_mul q a b : 0 <= a -> 0 <= b -> E3 q a -> E3 q (a * b).
Proof. intros Ha Hb (H2 & H7 & H61). split; [|split]; apply pow_pow_1; assumption. Qed.

Lemma rel_prime_of_ndvd q a : prime q -> ~ (q | a) -> rel_prime a q.
Proof. intros Hq H. apply rel_prime_sym, prime_rel_prime; assumption. Qed.

Lemma E3_gcd q i j : prime q -> coprime3 q -> 0 <= i -> 0 <= j -> E3 q i -> E3 q j -> E3 q (Z.gcd i j).
Proof.
  intros Hq (C2 & C7 & C61) Hi Hj (A2 & A7 & A61) (B2 & B7 & B61). assert (1 < q) by (destruct Hq; lia).
  split; [|split]; (apply order_gcd; [lia|lia|lia|apply rel_prime_of_ndvd; assumption|assumption|assumption]).
Qed.

(** h generates the exponents when no h/r does, r a prime factor of h. *)
Lemma E3_min q h : prime q -> coprime3 q -> 0 < h -> E3 q h ->
  (forall r, prime r -> (r | h) -> ~ E3 q (h / r)) -> forall m, 0 <= m -> E3 q m -> (h | m).
Proof.
  intros Hq C Hh Eh Hr m Hm Em.
  pose proof (E3_gcd q h m Hq C ltac:(lia) Hm Eh Em) as Eg.
  pose proof (Z.gcd_divide_l h m) as [c Hc]. set (g := Z.gcd h m) in *.
  assert (0 < g) by (assert (0 <= g) by apply Z.gcd_nonneg; destruct (Z.eq_dec g 0) as [E|]; [rewrite E in Hc|]; nia).
  assert (0 < c) by nia.
  destruct (Z.eq_dec c 1) as [->|].
  - replace h with g by lia. apply Z.gcd_divide_r.
  - exfalso. destruct (exists_prime_divisor c ltac:(lia)) as (r & Pr & [u Hu]).
    assert (1 < r) by (destruct Pr; lia).
    apply (Hr r Pr); [exists (u * g); rewrite Hc, Hu; ring|].
    assert (0 <= u) by nia.
    replace (h / r) with (g * u); [apply E3_mul; [lia|lia|exact Eg]|].
    rewrite Hc, Hu. replace (u * r * g) with (g * u * r) by ring. rewrite Z.div_mul by lia. reflexivity.
Qed.

(** n = k p with p prime: the cofactor less one is an exponent for p. *)
Lemma pow_split p a k : 0 < p -> 1 <= k -> (p | a ^ (p - 1) - 1) -> (p | a ^ (k * p - 1) - 1) -> (p | a ^ (k - 1) - 1).
Proof.
  intros Hp Hk H1 H2. assert (p | a ^ ((p - 1) * k) - 1) as H3 by (apply pow_pow_1; [lia|lia|exact H1]).
  replace (k * p - 1) with ((p - 1) * k + (k - 1)) in H2 by ring. rewrite Z.pow_add_r in H2 by nia.
  replace (a ^ (k - 1) - 1) with (a ^ ((p - 1) * k) * a ^ (k - 1) - 1 - (a ^ ((p - 1) * k) - 1) * a ^ (k - 1)) by ring.
  apply Z.divide_sub_r; [exact H2|]. apply Z.divide_mul_l, H3.
Qed.

Lemma good_cofactor k p : 1 <= k -> good (k * p) -> prime p -> E3 p (k - 1).
Proof.
  intros Hk G Hp. assert (1 < p) by (destruct Hp; lia).
  assert (p | k * p) as Hd by (exists k; reflexivity).
  destruct (E3_fermat p Hp (good_coprime3 _ p G Hp Hd)) as (A2 & A7 & A61).
  destruct (good_E3 _ p G Hd) as (B2 & B7 & B61).
  split; [|split]; (apply (pow_split p); [lia|lia|assumption|assumption]).
Qed.

(** A prime factor of n occurs once unless a^(q-1) = 1 modulo q^2. *)
Fixpoint geom (b : Z) (k : nat) : Z := match k with O => 0 | Datatypes.S k => b * geom b k + 1 end.
Lemma geom_spec b k : b ^ Z.of_nat k - 1 = (b - 1) * geom b k.
Proof.
  induction k as [|k IH]; [cbn; lia|]. rewrite Nat2Z.inj_succ, Z.pow_succ_r by lia. cbn [geom].
  replace (b * b ^ Z.of_nat k - 1) with (b * (b ^ Z.of_nat k - 1) + (b - 1)) by ring. rewrite IH. ring.
Qed.
Lemma geom_mod q b k : (q | b - 1) -> (q | geom b k - Z.of_nat k).
Proof.
  intros H. induction k as [|k IH]; [exists 0; reflexivity|]. cbn [geom]. rewrite Nat2Z.inj_succ.
  replace (b * geom b k + 1 - Z.succ (Z.of_nat k)) with ((b - 1) * geom b k + (geom b k - Z.of_nat k)) by lia.
  apply Z.divide_add_r; [apply Z.divide_mul_l, H|exact IH].
Qed.
Lemma pow_q_sq q b : 0 < q -> (q | b - 1) -> (q * q | b ^ q - 1).
Proof.
  intros Hq H. rewrite <- (Z2Nat.id q) at 3 by lia. rewrite geom_spec.
  apply Z.divide_trans with (q * geom b (Z.to_nat q)).
  - apply Z.mul_divide_mono_l. pose proof (geom_mod q b (Z.to_nat q) H) as [c Hc]. rewrite Z2Nat.id in Hc by lia.
    exists (c + 1). lia.
  - apply Z.mul_divide_mono_r, H.
Qed.

Lemma square_factor q n a : prime q -> 1 < n -> (q * q | n) -> (n | a ^ (n - 1) - 1) -> (q * q | a ^ (q - 1) - 1).
Proof.
  intros Hq Hn Hd H. assert (1 < q) by (destruct Hq; lia).
  assert (q | n) as Hqn by (eapply Z.divide_trans; [|exact Hd]; exists q; reflexivity).
  pose proof (fermat_coprime n q a Hn Hq Hqn H) as Ha.
  assert (q | a ^ (q - 1) - 1) as Hf by (apply pow_mod_eq_iff; [lia..|]; apply fermat_Z; assumption).
  pose proof (pow_q_sq q _ ltac:(lia) Hf) as Hs. rewrite <- Z.pow_mul_r in Hs by lia.
  assert (rel_prime a (q * q)) as Hr.
  { apply rel_prime_sym, rel_prime_sym. apply rel_prime_mult; apply rel_prime_of_ndvd; assumption. }
  assert (q * q | a ^ Z.gcd (n - 1) ((q - 1) * q) - 1) as Hg.
  { apply order_gcd; [nia|lia|nia|exact Hr| |exact Hs]. apply Z.divide_trans with n; assumption. }
  assert (Z.gcd (n - 1) ((q - 1) * q) | q - 1) as [c Hc].
  { apply Gauss with q.
    - rewrite Z.mul_comm. apply Z.gcd_divide_r.
    - apply rel_prime_sym. apply prime_rel_prime; [exact Hq|]. intros Hx.
      assert (q | n - 1) as Hy by (eapply Z.divide_trans; [exact Hx|apply Z.gcd_divide_l]).
      assert (q | 1) as Hz by (replace 1 with (n - (n - 1)) by ring; apply Z.divide_sub_r; assumption).
      apply Z.divide_1_r_nonneg in Hz; lia. }
  assert (0 <= Z.gcd (n - 1) ((q - 1) * q)) by apply Z.gcd_nonneg.
  rewrite Hc, (Z.mul_comm c). apply pow_pow_1; [lia| |exact Hg]. nia.
Qed.
Close Scope Z_scope.
