From Coq Require Import Znumtheory.
From Verif Require Import Prelude NumTheory IntModel NumModel NumSpec NumProof IMathModel IMathSpec IMathProof IMathRoot ModIntModel ModIntSpec ModIntProof FactorialModel FactorialSpec FactorialProof NumAgreeSpec.
Open Scope Z_scope.

(** ** gcd and ex_gcd *)
Lemma ex_gcd_gcd T a b x y g : ex_gcd T a b = Ok (x, y, g) -> gcd T a b = Ok g.
Proof.
  unfold ex_gcd, gcd. generalize (euclid_fuel T). intros fuel. revert a b x y g. induction fuel as [|fuel IH]; intros a b x y g H; [discriminate|].
  cbn [ex_gcd_rec rloop gcd_step] in *. destruct (b =? 0); [cbn; congruence|]. destruct (irem T a b) as [r| |] eqn:E; cbn [mbind res_bind] in *; try discriminate.
  destruct (ex_gcd_rec T fuel b r) as [[[x' y'] g']| |] eqn:E'; cbn [mbind res_bind] in *; try discriminate. apply IH in E'.
  destruct (idiv T a b) as [q| |]; cbn [mbind res_bind] in *; try discriminate. destruct (imul T q y') as [p| |]; cbn [mbind res_bind] in *; try discriminate.
  destruct (isub T x' p) as [z| |]; cbn [mbind res_bind] in *; try discriminate. congruence.
Qed.

(** ** Uniqueness *)
Lemma inv_unique m a x y : prime m -> ~ (m | a) -> 0 <= x < m -> 0 <= y < m -> (m | a * x - 1) -> (m | a * y - 1) -> x = y.
Proof.
  intros Hp Ha Hx Hy H1 H2. assert (H : (m | a * (x - y))) by (replace (a * (x - y)) with ((a * x - 1) - (a * y - 1)) by ring; apply Z.divide_sub_r; assumption).
  apply prime_mult in H as [H|H]; [contradiction| |exact Hp]. destruct H as [k Hk]. assert (k = 0) by nia. lia.
Qed.
Lemma crt_unique a b m a' b' m' o o' : (forall y, solves a b m y <-> solves a' b' m' y) -> crt_answer a b m o -> crt_answer a' b' m' o' -> o = o'.
Proof.
  intros S H H'. destruct o as [[x l]|], o' as [[x' l']|]; cbn in *.
  - destruct H as [Hx H], H' as [Hx' H']. assert (E : forall y, (l | y - x) <-> (l' | y - x')) by (intros y; rewrite <- H, <- H'; apply S).
    assert (Hl : l = l').
    { apply Z.divide_antisym_nonneg; try lia.
      - replace l' with ((x' + l' - x) - (x' - x)) by lia. apply Z.divide_sub_r; apply E; [exists 1; lia|exists 0; lia].
      - replace l with ((x + l - x') - (x - x')) by lia. apply Z.divide_sub_r; apply E; [exists 1; lia|exists 0; lia]. }
    subst l'. assert (D : (l | x' - x)) by (apply E; exists 0; lia). destruct D as [k Hk]. assert (k = 0) by nia. assert (x = x') by lia. congruence.
  - exfalso. apply (H' x). apply S, H. exists 0. lia.
  - exfalso. apply (H x'). apply S, H'. exists 0. lia.
  - reflexivity.
Qed.

Lemma solves_list l y : solves (coefs l) (rests l) (moduli l) y <-> forall c, c ∈ l -> (c.2 | c.1.1 * y - c.1.2).
Proof.
  unfold solves, coefs, rests, moduli. split.
  - intros H [[a b] m] Hc. apply elem_of_list_lookup in Hc as [i Hi]. apply (H i a b m); rewrite list_lookup_fmap, Hi; reflexivity.
  - intros H i a b m Ha Hb Hm. rewrite list_lookup_fmap in Ha, Hb, Hm. destruct (l !! i) as [[[a' b'] m']|] eqn:Hi; [|discriminate].
    cbn in Ha, Hb, Hm. injection Ha as <-. injection Hb as <-. injection Hm as <-. apply (H (a', b', m')). eapply elem_of_list_lookup_2, Hi.
Qed.

(** ** Discrete logarithms *)
Lemma mod_pow_period m g k : prime m -> ~ (m | g) -> 0 <= k -> exists j, 0 <= j < m - 1 /\ g ^ k mod m = g ^ j mod m.
Proof.
  intros Hp Hg Hk. pose proof (prime_ge_2 m Hp). exists (k mod (m - 1)). pose proof (Z.mod_pos_bound k (m - 1) ltac:(lia)). split; [lia|].
  rewrite (Z.div_mod k (m - 1)) at 1 by lia. rewrite Z.pow_add_r, Z.pow_mul_r by (try lia; try (apply Z.mul_nonneg_nonneg; [lia|apply Z.div_pos; lia]); apply Z.div_pos; lia).
  rewrite Z.mul_mod by lia. assert (E : (g ^ (m - 1)) ^ (k / (m - 1)) mod m = 1).
  { assert (H1 : g ^ (m - 1) mod m = 1) by (apply fermat_Z; assumption).
    rewrite Zpow_facts.Zpower_mod by lia. rewrite H1, Z.pow_1_l by (apply Z.div_pos; lia). apply Z.mod_small. lia. }
  rewrite E, Z.mul_1_l. apply Z.mod_mod. lia.
Qed.
Lemma dlog_unique m g : prime m -> (forall x, 1 <= x < m -> exists k, 0 <= k /\ mod_of (g ^ k) m x) -> ~ (m | g) ->
  forall x, 1 <= x < m -> exists k, 0 <= k < m - 1 /\ mod_of (g ^ k) m x /\ forall k', 0 <= k' < m - 1 -> mod_of (g ^ k') m x -> k' = k.
Proof.
  intros Hp Hgen Hg. pose proof (prime_ge_2 m Hp) as H2.
  set (N := Z.to_nat (m - 1)). set (f := fun i : nat => g ^ Z.of_nat i mod m).
  assert (Sur : forall x, 1 <= x < m -> exists i, (i < N)%nat /\ f i = x).
  { intros x Hx. destruct (Hgen x Hx) as (k & Hk & Hm). apply mod_of_eq in Hm; [|lia]. destruct (mod_pow_period m g k Hp Hg Hk) as (j & Hj & E).
    exists (Z.to_nat j). split; [unfold N; lia|]. unfold f. rewrite Z2Nat.id by lia. congruence. }
  assert (ND : List.NoDup (map f (seq 0 N))).
  { apply (NoDup_incl_NoDup (l:=map (fun i => Z.of_nat i + 1) (seq 0 N))).
    - apply FinFun.Injective_map_NoDup; [intros i j Hij; lia|apply seq_NoDup].
    - rewrite !map_length. lia.
    - intros x Hx. apply in_map_iff in Hx as (i & <- & Hi). apply in_seq in Hi. destruct (Sur (Z.of_nat i + 1)) as (j & Hj & <-); [unfold N in Hi; lia|].
      apply in_map. apply in_seq. lia. }
  intros x Hx. destruct (Sur x Hx) as (i & Hi & E). exists (Z.of_nat i). split; [unfold N in Hi; lia|]. split; [rewrite <- E; apply mod_of_mod; lia|].
  intros k' Hk' Hm'. apply mod_of_eq in Hm'; [|lia]. set (j := Z.to_nat k'). assert (Hj : (j < N)%nat) by (unfold j, N; lia).
  assert (Ej : f j = f i) by (unfold f at 1, j; rewrite Z2Nat.id by lia; congruence).
  enough (j = i) by lia. apply (proj1 (NoDup_nth (map f (seq 0 N)) (f 0%nat)) ND); [rewrite map_length, seq_length; lia..|].
  rewrite !map_nth, !seq_nth by lia. exact Ej.
Qed.

(** ** Binomials *)
Lemma binom_sym n k : (k <= n)%nat -> binom n k = binom n (n - k).
Proof.
  intros H. pose proof (binom_fact n k H) as H1. pose proof (binom_fact n (n - k) ltac:(lia)) as H2. replace (n - (n - k))%nat with k in H2 by lia.
  rewrite (Nat.mul_comm (fact (n - k))), <- H1 in H2. apply Nat.mul_cancel_r in H2; [congruence|]. pose proof (lt_O_fact k). pose proof (lt_O_fact (n - k)). nia.
Qed.
Lemma binom_row n : foldr Z.add 0 (map (fun k => Z.of_nat (binom n k)) (seq 0 (S n))) = 2 ^ Z.of_nat n.
Proof.
  induction n as [|n IH]; [reflexivity|].
  assert (G : forall j len, foldr Z.add 0 (map (fun k => Z.of_nat (binom (S n) k)) (seq (S j) len)) =
    foldr Z.add 0 (map (fun k => Z.of_nat (binom n k)) (seq j len)) + foldr Z.add 0 (map (fun k => Z.of_nat (binom n k)) (seq (S j) len))).
  { intros j len. revert j. induction len as [|len IHl]; intros j; [reflexivity|]. cbn [seq map foldr]. rewrite IHl. cbn [binom]. lia. }
  change (seq 0 (S (S n))) with (0%nat :: seq 1 (S n)). cbn [map foldr]. rewrite G, IH.
  replace (seq 1 (S n)) with (seq 1 n ++ [S n]) by (rewrite seq_S; reflexivity).
  rewrite map_app, foldr_app. cbn [map foldr]. rewrite (binom_gt n (S n)) by lia.
  cbn [seq map foldr] in IH. rewrite Z.add_0_r. assert (E : binom (S n) 0 = 1%nat /\ binom n 0 = 1%nat) by (destruct n; auto). destruct E as [-> E]. rewrite E in IH.
  rewrite (Nat2Z.inj_succ n), (Z.pow_succ_r 2 (Z.of_nat n)) by lia. change (Z.of_nat 0) with 0. lia.
Qed.
Close Scope Z_scope.
