(** Proofs about src/math/number_theory.rs. *)
From Verif Require Import Prelude IntModel NumModel NumSpec.
From Coq Require Import Znumtheory Zpow_facts.
Open Scope Z_scope.

Lemma ex1 a b q r g : a = b * q + r -> 0 <= r -> 0 <= q -> 2 * g <= b -> 2 * q * g <= a.
Proof. intros -> H1 H2 H3. assert (q * (2 * g) <= q * b) by (apply Z.mul_le_mono_nonneg_l; lia). lia. Qed.
Lemma ex2 a b q r x y g : a = b * q + r -> 0 <= q -> 2 * x * g <= r -> 2 * y * g <= b -> 2 * (x + q * y) * g <= a.
Proof. intros -> H1 H2 H3. assert (q * (2 * y * g) <= q * b) by (apply Z.mul_le_mono_nonneg_l; lia). lia. Qed.
Lemma ex3 a u g : 1 <= g -> 0 <= u -> 2 * u * g <= a -> 2 * u <= a.
Proof. intros H1 H2 H3. assert (2 * u * 1 <= 2 * u * g) by (apply Z.mul_le_mono_nonneg_l; lia). lia. Qed.

Section Euclid.
  Context (T : ity) (HT : 2 <= it_bits T).
  Local Notation M := (2 ^ (it_bits T - 1)).

  (** MIN % -1 and MIN / -1 overflow. *)
  Definition bad (a b : Z) : Prop := it_signed T = true /\ a = it_min T /\ b = -1.

  Lemma M_ge : 2 <= M.
  Proof. replace (it_bits T - 1) with (Z.succ (it_bits T - 2)) by lia. rewrite Z.pow_succ_r by lia.
    pose proof (Z.pow_pos_nonneg 2 (it_bits T - 2)). lia. Qed.
  Lemma bits_M : 2 ^ it_bits T = 2 * M.
  Proof. replace (it_bits T) with (Z.succ (it_bits T - 1)) at 1 by lia. rewrite Z.pow_succ_r by lia. reflexivity. Qed.

  Lemma in_ty_abs x : in_ty T x -> Z.abs x < 2 ^ it_bits T.
  Proof. unfold in_ty, it_min, it_max. rewrite bits_M. pose proof M_ge. destruct (it_signed T); lia. Qed.

  Lemma rem_facts a b : b <> 0 ->
    a = b * Z.quot a b + Z.rem a b /\ Z.abs (Z.rem a b) < Z.abs b /\
    Z.abs a = Z.abs b * Z.abs (Z.quot a b) + Z.abs (Z.rem a b) /\ (0 <= a -> 0 <= Z.rem a b) /\ (a <= 0 -> Z.rem a b <= 0).
  Proof.
    intros Hb. pose proof (Z.quot_rem a b Hb) as E. pose proof (Z.rem_bound_abs a b Hb).
    split; [exact E|]. split; [assumption|]. split.
    - rewrite <- (Z.quot_abs a b Hb), <- (Z.rem_abs a b Hb). apply Z.quot_rem. lia.
    - split; intros H1; [apply Z.rem_nonneg; lia|apply Z.rem_nonpos; lia].
  Qed.

  Lemma quot_in a b : in_ty T a -> in_ty T b -> b <> 0 -> ~ bad a b -> in_ty T (Z.quot a b).
  Proof.
    intros Ha Hb Hn Hbad. destruct (rem_facts a b Hn) as (E & _ & E2 & Hs1 & Hs2).
    assert (Hq : Z.abs (Z.quot a b) <= Z.abs a) by nia.
    unfold bad in Hbad. unfold in_ty, it_min, it_max in *. destruct (it_signed T).
    - pose proof M_ge.
      destruct (decide (Z.quot a b = M)) as [Eq|]; [|lia].
      exfalso. assert (Z.abs a = M) by lia. assert (Z.abs b = 1) by nia.
      assert (b = 1 \/ b = -1) as [-> | ->] by lia; rewrite ?Z.quot_1_r in *; lia.
    - split; [apply Z.quot_pos; lia|lia].
  Qed.

  Lemma rem_in a b : in_ty T a -> in_ty T b -> b <> 0 -> in_ty T (Z.rem a b).
  Proof.
    intros Ha Hb Hn. destruct (rem_facts a b Hn) as (E & H1 & E2 & Hs1 & Hs2).
    unfold in_ty, it_min, it_max in *. destruct (it_signed T); lia.
  Qed.

  Lemma irem_ok a b : in_ty T a -> in_ty T b -> b <> 0 -> ~ bad a b -> irem T a b = Ok (Z.rem a b).
  Proof.
    intros Ha Hb Hn Hbad. unfold irem. rewrite (proj2 (Z.eqb_neq b 0) Hn).
    rewrite chk_ok by (apply quot_in; assumption). reflexivity.
  Qed.
  Lemma idiv_ok a b : in_ty T a -> in_ty T b -> b <> 0 -> ~ bad a b -> idiv T a b = Ok (Z.quot a b).
  Proof.
    intros Ha Hb Hn Hbad. unfold idiv. rewrite (proj2 (Z.eqb_neq b 0) Hn).
    apply chk_ok, quot_in; assumption.
  Qed.

  Lemma gcd_rem a b : b <> 0 -> Z.gcd b (Z.rem a b) = Z.gcd a b.
  Proof. intros H. rewrite Z.gcd_comm, Z.gcd_rem by exact H. apply Z.gcd_comm. Qed.

  (** State of Euclid's algorithm with at most [m] steps to go. *)
  Definition eu (m : nat) (a b : Z) : Prop :=
    in_ty T a /\ in_ty T b /\ ~ bad a b /\ ~ bad b a /\
    ((Z.abs b <= Z.abs a /\ Z.abs a * Z.abs b < 2 ^ Z.of_nat m) \/ Z.of_nat m = 2 * it_bits T + 1).

  Lemma eu_start a b : in_ty T a -> in_ty T b -> ~ bad a b -> ~ bad b a -> eu (Z.to_nat (2 * it_bits T + 1)) a b.
  Proof. intros. repeat (split; [assumption|]). right. lia. Qed.

  Lemma eu_step m a b : eu m a b -> b <> 0 ->
    irem T a b = Ok (Z.rem a b) /\ exists m', (m' < m)%nat /\ eu m' b (Z.rem a b).
  Proof.
    intros (Ha & Hb & B1 & B2 & Hm) Hn. split; [apply irem_ok; assumption|].
    destruct (rem_facts a b Hn) as (E & Hr & E2 & Hs1 & Hs2).
    assert (Hgood : in_ty T b /\ in_ty T (Z.rem a b) /\ ~ bad b (Z.rem a b) /\ ~ bad (Z.rem a b) b).
    { split; [exact Hb|]. split; [apply rem_in; assumption|]. pose proof M_ge as HM.
      unfold bad, in_ty, it_min, it_max in *.
      generalize dependent (Z.rem a b). generalize (Z.quot a b). intros q r E Hr E2 Hs1 Hs2.
      split; intros (Hs & E3 & E4); rewrite Hs in *.
      - subst r. assert (Hq : q = 0 \/ Z.abs b <= Z.abs b * Z.abs q) by (destruct (decide (q = 0)); [left|right]; nia).
        destruct Hq as [->|Hq]; [apply B2; lia|]. lia.
      - lia. }
    destruct Hgood as (G1 & G2 & G3 & G4).
    destruct Hm as [[Hle Hm]|Hm].
    - assert (1 <= m)%nat.
      { destruct m; [|lia]. change (2 ^ Z.of_nat 0) with 1 in Hm. nia. }
      exists (m - 1)%nat. split; [lia|]. repeat (split; [assumption|]). left. split; [lia|].
      replace (Z.of_nat m) with (Z.succ (Z.of_nat (m - 1))) in Hm by lia. rewrite Z.pow_succ_r in Hm by lia.
      assert (2 * Z.abs (Z.rem a b) <= Z.abs a).
      { destruct (decide (Z.quot a b = 0)) as [Hq|Hq]; [rewrite Hq in E2; lia|].
        assert (Z.abs b <= Z.abs b * Z.abs (Z.quot a b)) by nia. lia. }
      apply (Z.mul_lt_mono_pos_l 2); [lia|]. eapply Z.le_lt_trans; [|exact Hm].
      replace (2 * (Z.abs b * Z.abs (Z.rem a b))) with (Z.abs b * (2 * Z.abs (Z.rem a b))) by lia.
      rewrite (Z.mul_comm (Z.abs a)). apply Z.mul_le_mono_nonneg_l; lia.
    - exists (m - 1)%nat. split; [lia|]. repeat (split; [assumption|]). left. split; [lia|].
      replace (Z.of_nat (m - 1)) with (it_bits T + it_bits T) by lia. rewrite Z.pow_add_r by lia.
      pose proof (in_ty_abs b Hb). apply Z.mul_lt_mono_nonneg; lia.
  Qed.

  Lemma gcd_ok a b : in_ty T a -> in_ty T b -> ~ bad a b -> ~ bad b a ->
    exists g, gcd T a b = Ok g /\ Z.abs g = Z.gcd a b /\ (0 <= a -> 0 <= b -> 0 <= g) /\ in_ty T g.
  Proof.
    intros Ha Hb B1 B2. unfold gcd.
    destruct (rloop_inv_idx
      (fun m '(x, y) => eu m x y /\ Z.gcd x y = Z.gcd a b /\ (0 <= a -> 0 <= b -> 0 <= x /\ 0 <= y))
      (fun g => Z.abs g = Z.gcd a b /\ (0 <= a -> 0 <= b -> 0 <= g) /\ in_ty T g) (gcd_step T))
      with (fuel := euclid_fuel T) (m := Z.to_nat (2 * it_bits T + 1)) (s := (a, b)) as (g & E & H).
    - intros m [x y] (He & Hg & Hs). unfold gcd_step. destruct (Z.eqb_spec y 0) as [->|Hy].
      + eexists. split; [reflexivity|]. rewrite Z.gcd_0_r in Hg. split; [exact Hg|]. split; [tauto|]. apply He.
      + destruct (eu_step m x y He Hy) as (-> & m' & Hm & He'). cbn [mbind res_bind].
        eexists. split; [reflexivity|]. exists m'. split; [exact Hm|]. split; [exact He'|].
        split; [rewrite gcd_rem by exact Hy; exact Hg|]. intros H1 H2. specialize (Hs H1 H2).
        split; [lia|]. apply Z.rem_nonneg; lia.
    - split; [apply eu_start; assumption|]. tauto.
    - unfold euclid_fuel. lia.
    - exists g. tauto.
  Qed.

  Lemma gcd_bad a b : bad a b \/ bad b a -> gcd T a b = Panic.
  Proof.
    pose proof M_ge as HM. pose proof bits_M as HB.
    assert (Hp : forall a b, bad a b -> irem T a b = Panic).
    { clear a b. intros a b (Hs & -> & ->). unfold irem. cbn [Z.eqb]. rewrite chk_panic; [reflexivity|].
      unfold in_ty, it_min, it_max. rewrite Hs. change (-1) with (- (1)). rewrite Z.quot_opp_opp, Z.quot_1_r by lia. lia. }
    unfold gcd, euclid_fuel. replace (Z.to_nat (2 * it_bits T) + 4)%nat with (S (S (Z.to_nat (2 * it_bits T) + 2))) by lia.
    intros [H|H].
    - cbn [rloop]. unfold gcd_step. rewrite (Hp a b H). destruct H as (_ & -> & ->). reflexivity.
    - destruct H as (Hs & Eb & Ea).
      assert (irem T a b = Ok (Z.rem a b)) as E.
      { apply irem_ok.
        - rewrite Ea. unfold in_ty, it_min, it_max. rewrite Hs. lia.
        - rewrite Eb. unfold in_ty, it_min, it_max. rewrite Hs. lia.
        - rewrite Eb. unfold it_min. rewrite Hs. lia.
        - rewrite Ea. unfold bad, it_min. rewrite Hs. lia. }
      assert (Hr : Z.rem a b = -1).
      { rewrite Ea, Eb. unfold it_min. rewrite Hs. rewrite Z.rem_opp_r by lia.
        change (-1) with (- (1)). rewrite Z.rem_opp_l, Z.rem_small by lia. reflexivity. }
      rewrite Hr in E.
      assert (S1 : gcd_step T (a, b) = Ok (inl (b, -1))).
      { unfold gcd_step. rewrite E. destruct (Z.eqb_spec b 0) as [H0|H0]; [unfold it_min in Eb; rewrite Hs in Eb; lia|].
        reflexivity. }
      assert (S2 : gcd_step T (b, -1) = Panic).
      { unfold gcd_step. rewrite (Hp b (-1)); [reflexivity|]. split; [exact Hs|]. auto. }
      cbn [rloop]. rewrite S1. cbn [mbind res_bind]. rewrite S2. reflexivity.
  Qed.

  Lemma lcm_ok a b : in_ty T a -> in_ty T b -> 0 <= a -> 0 <= b -> 0 < a \/ 0 < b -> in_ty T (a * b) -> lcm T a b = Ok (Z.lcm a b).
  Proof.
    intros Ha Hb Pa Pb Hpos Hab. unfold lcm, imul. rewrite chk_ok by exact Hab. cbn [mbind res_bind].
    assert (N : forall x y, 0 <= x -> 0 <= y -> ~ bad x y) by (unfold bad; intros; lia).
    destruct (gcd_ok a b Ha Hb) as (g & -> & Hg & Hg0 & Hgt); [apply N; lia..|].
    cbn [mbind res_bind]. specialize (Hg0 Pa Pb). rewrite Z.abs_eq in Hg by exact Hg0. subst g.
    assert (Hn : Z.gcd a b <> 0) by (intros H0%Z.gcd_eq_0; lia).
    rewrite idiv_ok; [|assumption|assumption|assumption|apply N; nia].
    f_equal. unfold Z.lcm. rewrite Z.quot_div_nonneg by (try apply Z.mul_nonneg_nonneg; lia).
    rewrite Z.divide_div_mul_exact; [|exact Hn|apply Z.gcd_divide_r].
    rewrite Z.abs_eq; [reflexivity|]. apply Z.mul_nonneg_nonneg; [lia|]. apply Z.div_pos; lia.
  Qed.

  Lemma lcm_overflow a b : ~ in_ty T (a * b) -> lcm T a b = Panic.
  Proof. intros H. unfold lcm, imul. rewrite chk_panic by exact H. reflexivity. Qed.

  (** The division in lcm never meets MIN / -1: coprime factors of MIN in range are 1 and MIN. *)
  Lemma lcm_div a b g : in_ty T a -> in_ty T b -> gcd T a b = Ok g -> Z.gcd a b = 1 -> ~ bad (a * b) g.
  Proof.
    intros Ha Hb E Hg (Hs & Hp & ->). pose proof M_ge as HM.
    assert (forall x y, x * y = - M -> Z.odd x = true -> x = 1 \/ x = -1) as Hodd.
    { intros x y Hxy Ho. assert (rel_prime x M) as Hrp.
      { apply Zpow_facts.rel_prime_Zpower_r; [lia|]. apply Zgcd_1_rel_prime. destruct (Zodd_ex x) as [k ->]; [apply Zodd_bool_iff; exact Ho|].
        rewrite Z.gcd_comm. apply Zgcd_1_rel_prime. apply bezout_rel_prime. apply (Bezout_intro _ _ _ (- k) 1). lia. }
      destruct (rel_prime_bezout _ _ Hrp) as [u v Huv]. assert ((x | 1)) as Hd1 by (exists (u - v * y); nia). apply Z.divide_1_r in Hd1. lia. }
    assert (it_min T = - M) as Em by (unfold it_min; rewrite Hs; reflexivity). rewrite Em in Hp.
    assert (in_ty T a /\ in_ty T b) as [Ra Rb] by auto. unfold in_ty, it_max in Ra, Rb. rewrite Em, Hs in Ra, Rb.
    assert (irem T 1 (- M) = Ok 1 /\ irem T (- M) 1 = Ok 0) as [R1 R2].
    { assert (in_ty T 1 /\ in_ty T (- M)) as [I1 I2] by (unfold in_ty, it_max; rewrite Em, Hs; lia).
      split; rewrite irem_ok; try assumption; try lia; try (unfold bad; lia); f_equal.
      - rewrite Z.rem_opp_r by lia. apply Z.rem_small. lia.
      - apply Z.rem_1_r. }
    assert (gcd T 1 (- M) = Ok 1 /\ gcd T (- M) 1 = Ok 1) as [G1 G2].
    { unfold gcd, euclid_fuel. replace (Z.to_nat (2 * it_bits T) + 4)%nat with (S (S (S (Z.to_nat (2 * it_bits T) + 1)))) by lia.
      assert (gcd_step T (1, - M) = Ok (inl (- M, 1))) as S1 by (unfold gcd_step; rewrite (proj2 (Z.eqb_neq (- M) 0)), R1 by lia; reflexivity).
      assert (gcd_step T (- M, 1) = Ok (inl (1, 0))) as S2 by (unfold gcd_step; rewrite R2; reflexivity).
      split; cbn [rloop]; [rewrite S1; cbn [mbind res_bind]|]; rewrite S2; cbn [mbind res_bind]; reflexivity. }
    destruct (Z.odd a) eqn:Oa; [|destruct (Z.odd b) eqn:Ob].
    - destruct (Hodd a b Hp Oa) as [-> | ->]; [|lia]. assert (b = - M) as -> by lia. rewrite G1 in E. discriminate.
    - destruct (Hodd b a ltac:(lia) Ob) as [-> | ->]; [|lia]. assert (a = - M) as -> by lia. rewrite G2 in E. discriminate.
    - assert ((2 | Z.gcd a b)) as H2 by (apply Z.gcd_greatest; apply Zmod_divide; try lia; rewrite Zmod_even, <- Z.negb_odd, ?Oa, ?Ob; reflexivity).
      rewrite Hg in H2. apply Z.divide_1_r in H2. lia.
  Qed.
  Lemma lcm_any a b : in_ty T a -> in_ty T b -> a <> 0 \/ b <> 0 -> in_ty T (a * b) -> exists r, lcm T a b = Ok r /\ Z.abs r = Z.lcm a b.
  Proof.
    intros Ha Hb Hne Hab. pose proof M_ge as HM. unfold lcm, imul. rewrite chk_ok by exact Hab. cbn [mbind res_bind].
    destruct (gcd_ok a b Ha Hb) as (g & E & Hg & _ & Hgt).
    - intros (Hs & -> & ->). unfold in_ty, it_min, it_max in Hab. rewrite Hs in Hab. lia.
    - intros (Hs & -> & ->). unfold in_ty, it_min, it_max in Hab. rewrite Hs in Hab. lia.
    - rewrite E. cbn [mbind res_bind]. assert (Z.gcd a b <> 0) as Hn by (intros H0%Z.gcd_eq_0; lia). assert (g <> 0) as Hg0 by lia.
      rewrite idiv_ok; [|assumption|assumption|assumption|].
      + eexists. split; [reflexivity|]. rewrite <- Z.quot_abs by exact Hg0. rewrite Hg, Z.abs_mul. pose proof (Z.gcd_nonneg a b).
        rewrite Z.quot_div_nonneg by (try apply Z.mul_nonneg_nonneg; lia). rewrite <- Z.gcd_abs_r, <- Z.gcd_abs_l. unfold Z.lcm.
        rewrite Z.divide_div_mul_exact; [|rewrite Z.gcd_abs_l, Z.gcd_abs_r; exact Hn|apply Z.gcd_divide_r]. rewrite Z.gcd_abs_l, Z.gcd_abs_r.
        rewrite Z.abs_mul. f_equal. assert ((Z.gcd a b | b)) as [k Hk] by apply Z.gcd_divide_r.
        rewrite Hk at 1 3. rewrite Z.abs_mul. rewrite (Z.abs_eq (Z.gcd a b)) by assumption. rewrite !Z.div_mul by exact Hn. reflexivity.
      + destruct (decide (Z.gcd a b = 1)) as [H1|H1]; [apply lcm_div; assumption|]. intros (_ & _ & ->). lia.
  Qed.

  Lemma lcm_zero : lcm T 0 0 = Panic.
  Proof.
    assert (H0 : in_ty T 0) by (pose proof M_ge; pose proof bits_M; unfold in_ty, it_min, it_max; destruct (it_signed T); lia).
    unfold lcm, imul. rewrite Z.mul_0_l, chk_ok by exact H0. cbn [mbind res_bind].
    destruct (gcd_ok 0 0 H0 H0) as (g & -> & Hg & _); [unfold bad; lia..|].
    change (Z.gcd 0 0) with 0 in Hg. assert (g = 0) as -> by lia. reflexivity.
  Qed.

  (** What ex_gcd knows about the coefficients; [h] is |g|. *)
  Definition bezout_small (a b x y h : Z) : Prop :=
    (b = 0 /\ x = 1 /\ y = 0) \/
    (b <> 0 /\ Z.rem a b = 0 /\ x = 0 /\ y = 1) \/
    (b <> 0 /\ Z.rem a b <> 0 /\ 2 * Z.abs x * h <= Z.abs b /\ 2 * Z.abs y * h <= Z.abs a).

  Lemma ex_gcd_rec_ok (Hs : it_signed T = true) fuel : forall m a b, eu m a b -> (m < fuel)%nat ->
    exists x y g, ex_gcd_rec T fuel a b = Ok (x, y, g) /\ a * x + b * y = g /\ Z.abs g = Z.gcd a b /\
      (0 <= a -> 0 <= b -> 0 <= g) /\ bezout_small a b x y (Z.abs g).
  Proof.
    induction fuel as [|fuel IH]; intros m a b He Hm; [lia|]. cbn [ex_gcd_rec].
    destruct (Z.eqb_spec b 0) as [->|Hb].
    { exists 1, 0, a. split; [reflexivity|]. split; [lia|]. split; [rewrite Z.gcd_0_r; reflexivity|]. split; [tauto|].
      left. auto. }
    destruct (eu_step m a b He Hb) as (-> & m' & Hm' & He'). cbn [mbind res_bind].
    destruct (IH m' b (Z.rem a b) He') as (x & y & g & -> & Hxy & Hg & Hg0 & Hsm); [lia|]. cbn [mbind res_bind].
    destruct He as (Ha & Hbt & B1 & B2 & _).
    rewrite idiv_ok by assumption. cbn [mbind res_bind].
    destruct (rem_facts a b Hb) as (E & Hr & E2 & Hs1 & Hs2).
    pose proof (quot_in a b Ha Hbt Hb B1) as Hq.
    rewrite gcd_rem in Hg by exact Hb.
    set (q := Z.quot a b) in *. set (r := Z.rem a b) in *.
    pose proof M_ge as HM.
    assert (Hga : (g | a) /\ (g | b)).
    { split; apply Z.divide_abs_l; rewrite Hg; [apply Z.gcd_divide_l|apply Z.gcd_divide_r]. }
    assert (Hgp : 1 <= Z.abs g).
    { destruct (Z.eq_dec g 0) as [->|]; [|lia]. destruct Hga as [_ Hd]. apply Z.divide_0_l in Hd. contradiction. }
    assert (Hnew : in_ty T (q * y) /\ in_ty T (x - q * y) /\
      (b <> 0 /\ r = 0 /\ y = 0 /\ x - q * y = 1 \/
       b <> 0 /\ r <> 0 /\ 2 * Z.abs y * Z.abs g <= Z.abs b /\ 2 * Z.abs (x - q * y) * Z.abs g <= Z.abs a)).
    { destruct Hsm as [(R0 & -> & ->)|[(R0 & R1 & -> & ->)|(R0 & R1 & X & Y)]].
      - rewrite R0 in *. rewrite Z.mul_0_r. unfold in_ty, it_min, it_max. rewrite Hs. split; [lia|]. split; [lia|].
        left. repeat split; try assumption; lia.
      - (* r divides b, so |r| = |g| and |b| >= 2|g| *)
        assert (Hrg : Z.abs r = Z.abs g).
        { rewrite Z.mul_0_r, Z.mul_1_r, Z.add_0_l in Hxy. rewrite Hxy. reflexivity. }
        assert (Hbg : 2 * Z.abs g <= Z.abs b).
        { destruct (rem_facts b r R0) as (_ & _ & F3 & _). rewrite R1, Hrg in F3. rewrite Hrg in Hr.
          clear - F3 Hr Hgp. generalize dependent (Z.abs (Z.quot b r)). intros k F3.
          destruct (decide (k <= 1)) as [Hk|Hk].
          - assert (Z.abs g * k <= Z.abs g * 1) by (apply Z.mul_le_mono_nonneg_l; lia). cbn in F3. lia.
          - assert (Z.abs g * 2 <= Z.abs g * k) by (apply Z.mul_le_mono_nonneg_l; lia). cbn in F3. lia. }
        rewrite Z.mul_1_r. replace (Z.abs (0 - q)) with (Z.abs q) by lia.
        pose proof (ex1 _ _ _ _ _ E2 (Z.abs_nonneg _) (Z.abs_nonneg _) Hbg) as Hqg.
        pose proof (ex3 _ _ _ Hgp (Z.abs_nonneg _) Hqg).
        split; [exact Hq|]. split.
        + unfold in_ty, it_min, it_max in *. rewrite Hs in *. lia.
        + right. repeat split; try assumption; lia.
      - pose proof (ex2 _ _ _ _ _ _ _ E2 (Z.abs_nonneg _) X Y) as Hn.
        rewrite <- Z.abs_mul in Hn.
        assert (Hxqy : 2 * Z.abs (x - q * y) * Z.abs g <= Z.abs a).
        { eapply Z.le_trans; [|exact Hn]. apply Z.mul_le_mono_nonneg_r; lia. }
        assert (2 * (Z.abs x + Z.abs (q * y)) <= Z.abs a) by (apply (ex3 _ _ _ Hgp); [lia|exact Hn]).
        assert (2 * Z.abs (x - q * y) <= Z.abs a) by (apply (ex3 _ _ _ Hgp); [lia|exact Hxqy]).
        split; [|split].
        + unfold in_ty, it_min, it_max in *. rewrite Hs in *. lia.
        + unfold in_ty, it_min, it_max in *. rewrite Hs in *. lia.
        + right. repeat split; try assumption; lia. }
    destruct Hnew as (N1 & N2 & N3).
    unfold imul, isub. rewrite chk_ok by exact N1. cbn [mbind res_bind]. rewrite chk_ok by exact N2. cbn [mbind res_bind].
    exists y, (x - q * y), g. split; [reflexivity|]. split; [rewrite E, <- Hxy; ring|].
    split; [exact Hg|]. split.
    - intros H1 H2. apply Hg0; [exact H2|]. apply Hs1. exact H1.
    - right. destruct N3 as [(A & B & C & D)|(A & B & C & D)]; [left|right]; auto.
  Qed.

  Lemma ex_gcd_ok a b : it_signed T = true -> in_ty T a -> in_ty T b -> ~ bad a b -> ~ bad b a ->
    exists x y g, ex_gcd T a b = Ok (x, y, g) /\ a * x + b * y = g /\ Z.abs g = Z.gcd a b /\
      (0 <= a -> 0 <= b -> 0 <= g) /\ bezout_small a b x y (Z.abs g).
  Proof.
    intros Hs Ha Hb B1 B2. unfold ex_gcd. apply (ex_gcd_rec_ok Hs _ (Z.to_nat (2 * it_bits T + 1))).
    - apply eu_start; assumption.
    - unfold euclid_fuel. lia.
  Qed.

  Lemma ex_gcd_bad a b : bad a b \/ bad b a -> ex_gcd T a b = Panic.
  Proof.
    intros H. pose proof (gcd_bad a b H) as Hg. revert Hg. unfold gcd, ex_gcd.
    generalize (euclid_fuel T) as fuel. clear H. intros fuel. revert a b.
    induction fuel as [|fuel IH]; intros a b; cbn [rloop ex_gcd_rec]; [discriminate|].
    change (gcd_step T (a, b)) with (if b =? 0 then Ok (inr a) else r ← irem T a b; Ok (inl (b, r))).
    destruct (Z.eqb_spec b 0) as [->|Hb]; [discriminate|].
    destruct (irem T a b) as [r| |] eqn:E; cbn [mbind res_bind]; try congruence.
    intros H. rewrite (IH b r H). reflexivity.
  Qed.
End Euclid.

(** ** ex_crt *)
Lemma rfor_range_post {S} (I : nat -> S -> Prop) a b (body : nat -> S -> res S) s s' :
  (a <= b)%nat -> I a s -> (forall i s s', (a <= i < b)%nat -> I i s -> body i s = Ok s' -> I (i + 1)%nat s') ->
  rfor (seq a (b - a)) body s = Ok s' -> I b s'.
Proof.
  intros Hab H0 Hstep. remember (b - a)%nat as k eqn:Hk. revert a s Hab H0 Hstep Hk.
  induction k as [|k IH]; intros a s Hab H0 Hstep Hk.
  - cbn. intros E. injection E as <-. replace b with a by lia. exact H0.
  - cbn [seq rfor]. intros (s1 & E & E')%rbind_ok_inv. replace (Datatypes.S a) with (a + 1)%nat in E' by lia.
    apply (IH (a + 1)%nat s1); [lia|apply (Hstep a s); [lia|exact H0|exact E]| |lia|exact E'].
    intros i s2 s3 Hi. apply Hstep. lia.
Qed.

Lemma i64_range x : in_ty i64 x <-> - 2 ^ 63 <= x <= 2 ^ 63 - 1.
Proof. unfold in_ty, it_min, it_max. cbn [it_signed it_bits i64]. replace (64 - 1) with 63 by lia. reflexivity. Qed.
Lemma i128_range x : in_ty i128 x <-> - 2 ^ 127 <= x <= 2 ^ 127 - 1.
Proof. unfold in_ty, it_min, it_max. cbn [it_signed it_bits i128]. replace (128 - 1) with 127 by lia. reflexivity. Qed.

Section Crt.
  Context (a b m : list Z).
  Context (Ha : forall i x, a !! i = Some x -> 0 <= x /\ in_ty i64 x).
  Context (Hb : forall i x, b !! i = Some x -> in_ty i64 x).
  Context (Hm : forall i x, m !! i = Some x -> 0 < x /\ in_ty i64 x).

  (** solves the first [i] congruences *)
  Definition psol (i : nat) (y : Z) : Prop :=
    forall j aj bj mj, (j < i)%nat -> a !! j = Some aj -> b !! j = Some bj -> m !! j = Some mj -> (mj | aj * y - bj).

  Definition cinv (i : nat) (s : option (Z * Z)) : Prop :=
    match s with
    | Some (x, l) => 1 <= l /\ in_ty i64 l /\ in_ty i64 x /\ Z.abs x < l /\ (forall y, psol i y <-> (l | y - x))
    | None => forall y, ~ psol i y
    end.

  Lemma psol_S i y ai bi mi : a !! i = Some ai -> b !! i = Some bi -> m !! i = Some mi ->
    psol (i + 1) y <-> psol i y /\ (mi | ai * y - bi).
  Proof.
    intros E1 E2 E3. split.
    - intros H. split; [|eapply H; eauto; lia]. intros j aj bj mj Hj. apply H. lia.
    - intros [H1 H2] j aj bj mj Hj F1 F2 F3. destruct (decide (j = i)) as [->|].
      + congruence.
      + eapply H1; eauto. lia.
  Qed.

  (** One congruence  A * k = B (mod mi)  with  A * y + mi * z = g = gcd > 0. *)
  Lemma lin_cong A B mi y z g k : 0 < g -> (g | A) -> (g | mi) -> (g | B) -> A * y + mi * z = g ->
    (mi | A * k - B) <-> (mi / g | k - y * (B / g)).
  Proof.
    intros Hg [A' ->] [m' ->] [B' ->] H. rewrite !Z.div_mul by lia.
    assert (HB : A' * y + m' * z = 1) by nia. clear H. split.
    - intros [c Hc]. assert (Hc' : A' * k - B' = c * m') by nia. clear Hc.
      exists (y * c + z * k). replace (k - y * B') with (k * (A' * y + m' * z) - y * B') by (rewrite HB; ring).
      transitivity (y * (A' * k - B') + m' * z * k); [ring|]. rewrite Hc'. ring.
    - intros [c Hc]. assert (k = y * B' + c * m') as -> by lia.
      exists (A' * c - z * B'). transitivity ((A' * y + m' * z - 1 + 1) * B' * g + A' * c * m' * g - B' * g - m' * z * B' * g); [ring|].
      rewrite HB. ring.
  Qed.

  (** The same numbers as computed by the code. *)
  Lemma crt_step i x l s' ai bi mi : a !! i = Some ai -> b !! i = Some bi -> m !! i = Some mi ->
    cinv i (Some (x, l)) -> ex_crt_body a b m i (Some (x, l)) = Ok s' -> cinv (i + 1) s'.
  Proof.
    intros E1 E2 E3 (Hl1 & Hlt & Hxt & Hx & Hsol) H. cbn [ex_crt_body] in H.
    rewrite !(vget_ok a i ai E1), (vget_ok b i bi E2), (vget_ok m i mi E3) in H. cbn [mbind res_bind] in H.
    destruct (Ha i ai E1) as [Ha0 Hat]. destruct (Hm i mi E3) as [Hm0 Hmt].
    apply rbind_ok_inv in H as (a_ & F1 & H). apply chk_inv in F1 as [-> F1].
    apply rbind_ok_inv in H as (ax & F2 & H). apply chk_inv in F2 as [-> F2].
    apply rbind_ok_inv in H as (b_ & F3 & H). apply chk_inv in F3 as [-> F3].
    set (A := ai * l) in *. set (B := bi - ai * x) in *.
    assert (HA0 : 0 <= A) by (unfold A; nia).
    destruct (ex_gcd_ok i64 ltac:(cbn; lia) A mi eq_refl F1 Hmt) as (y & z & g & E & Hbz & Hg & Hg0 & Hsm);
      [unfold bad; lia|unfold bad, it_min; cbn; lia|].
    rewrite E in H. cbn [mbind res_bind] in H.
    specialize (Hg0 HA0 ltac:(lia)). rewrite (Z.abs_eq g Hg0) in *.
    assert (Hgp : 0 < g).
    { assert (g <> 0); [|lia]. rewrite Hg. intros [_ ?]%Z.gcd_eq_0. lia. }
    assert (HgA : (g | A)) by (rewrite Hg; apply Z.gcd_divide_l).
    assert (Hgm : (g | mi)) by (rewrite Hg; apply Z.gcd_divide_r).
    assert (Hgle : g <= mi) by (apply Z.divide_pos_le; assumption).
    assert (Hgt : in_ty i64 g) by (rewrite i64_range in *; lia).
    rewrite (irem_ok i64 ltac:(cbn; lia) B g F3 Hgt) in H; [|lia|unfold bad; lia]. cbn [mbind res_bind] in H.
    assert (Hkey : forall k, (mi | ai * (x + l * k) - bi) <-> (mi | A * k - B)).
    { intros k. unfold A, B. replace (ai * (x + l * k) - bi) with (ai * l * k - (bi - ai * x)) by ring. reflexivity. }
    destruct (Z.eqb_spec (Z.rem B g) 0) as [Hr|Hr]; cbn [negb] in H.
    - assert (HgB : (g | B)) by (apply Z.rem_divide; [lia|exact Hr]).
      rewrite (idiv_ok i64 ltac:(cbn; lia) B g F3 Hgt) in H; [|lia|unfold bad; lia]. cbn [mbind res_bind] in H.
      rewrite (idiv_ok i64 ltac:(cbn; lia) mi g Hmt Hgt) in H; [|lia|unfold bad; lia]. cbn [mbind res_bind] in H.
      rewrite (Z.quot_div_nonneg mi g) in H by lia.
      assert (HBq : Z.quot B g = B / g).
      { destruct HgB as [c ->]. rewrite Z.quot_mul, Z.div_mul by lia. reflexivity. }
      rewrite HBq in H. set (m' := mi / g) in *.
      assert (Hm' : mi = m' * g).
      { unfold m'. destruct Hgm as [c ->]. rewrite Z.div_mul by lia. reflexivity. }
      assert (Hm'p : 1 <= m') by nia. assert (Hm'le : m' <= mi) by nia.
      apply rbind_ok_inv in H as (p & F4 & H). apply chk_inv in F4 as [-> F4].
      assert (Hm't : in_ty i128 m').
      { rewrite i128_range. rewrite i64_range in *. assert (2 ^ 63 < 2 ^ 127) by (apply Z.pow_lt_mono_r; lia). lia. }
      rewrite (irem_ok i128 ltac:(cbn; lia) _ m' F4 Hm't) in H; [|lia|unfold bad; lia]. cbn [mbind res_bind] in H.
      set (t := Z.rem (y * (B / g)) m') in *.
      assert (Ht : Z.abs t < m').
      { pose proof (Z.rem_bound_abs (y * (B / g)) m' ltac:(lia)). fold t in H0. lia. }
      rewrite wrap_id in H; [|cbn; lia|rewrite i64_range in *; lia].
      apply rbind_ok_inv in H as (d & F5 & H). apply chk_inv in F5 as [-> F5].
      apply rbind_ok_inv in H as (x' & F6 & H). apply chk_inv in F6 as [-> F6].
      apply rbind_ok_inv in H as (l' & F7 & H). apply chk_inv in F7 as [-> F7].
      injection H as <-. cbn [cinv].
      assert (Hlm : l <= l * m') by nia.
      split; [lia|]. split; [exact F7|]. split; [exact F6|]. split.
      + assert (Z.abs (l * t) = l * Z.abs t) by (rewrite Z.abs_mul; lia).
        assert (l * Z.abs t <= l * (m' - 1)) by (apply Z.mul_le_mono_nonneg_l; lia). lia.
      + assert (Htc : (m' | y * (B / g) - t)).
        { exists (Z.quot (y * (B / g)) m'). pose proof (Z.quot_rem (y * (B / g)) m' ltac:(lia)). fold t in H. lia. }
        intros w. rewrite (psol_S i w ai bi mi E1 E2 E3), Hsol. split.
        * intros [[k Hk] Hw]. assert (w = x + l * k) as -> by lia.
          rewrite Hkey, (lin_cong A B mi y z g k Hgp HgA Hgm HgB Hbz) in Hw. fold m' in Hw.
          assert (Hkt : (m' | k - t)) by (replace (k - t) with ((k - y * (B / g)) + (y * (B / g) - t)) by ring; apply Z.divide_add_r; assumption).
          destruct Hkt as [c Hc]. exists c. replace (x + l * k - (x + l * t)) with (l * (k - t)) by ring. rewrite Hc. ring.
        * intros [c Hc]. assert (w = x + l * (t + m' * c)) as -> by lia. split.
          -- exists (t + m' * c). ring.
          -- rewrite Hkey, (lin_cong A B mi y z g _ Hgp HgA Hgm HgB Hbz). fold m'.
             replace (t + m' * c - y * (B / g)) with (m' * c - (y * (B / g) - t)) by ring.
             apply Z.divide_sub_r; [apply Z.divide_factor_l|exact Htc].
    - injection H as <-. cbn [cinv]. intros w Hw.
      rewrite (psol_S i w ai bi mi E1 E2 E3), Hsol in Hw. destruct Hw as [[k Hk] Hw].
      assert (w = x + l * k) as -> by lia. rewrite Hkey in Hw.
      apply Hr, Z.rem_divide; [lia|]. replace B with (A * k - (A * k - B)) by ring.
      apply Z.divide_sub_r; [apply Z.divide_mul_l; exact HgA|]. eapply Z.divide_trans; eassumption.
  Qed.

  Context (Lb : length b = length a) (Lm : length m = length a).

  Lemma psol_all y : psol (length a) y <-> solves a b m y.
  Proof.
    split.
    - intros H i ai bi mi E1 E2 E3. eapply H; eauto. eapply lookup_lt_Some; exact E1.
    - intros H i ai bi mi _ E1 E2 E3. eapply H; eauto.
  Qed.

  Lemma ex_crt_sound o : ex_crt a b m = Ok o -> crt_answer a b m o.
  Proof.
    unfold ex_crt. intros (s & Hs & H)%rbind_ok_inv.
    assert (Hinv : cinv (length a) s).
    { refine (rfor_range_post cinv 0 (length a) (ex_crt_body a b m) (Some (0, 1)) s _ _ _ Hs).
      - lia.
      - cbn. split; [lia|]. split; [rewrite i64_range; lia|]. split; [rewrite i64_range; lia|]. split; [lia|].
        intros y. split; [intros _; apply Z.divide_1_l|]. intros _ j aj bj mj Hj. lia.
      - intros i s0 s1 Hi I0 E.
        destruct (lookup_lt_is_Some_2 a i) as [ai E1]; [lia|].
        destruct (lookup_lt_is_Some_2 b i) as [bi E2]; [lia|].
        destruct (lookup_lt_is_Some_2 m i) as [mi E3]; [lia|].
        destruct s0 as [[x l]|].
        + eapply crt_step; eauto.
        + cbn in E. injection E as <-. intros y Hy. apply (I0 y).
          rewrite (psol_S i y ai bi mi E1 E2 E3) in Hy. apply Hy. }
    destruct s as [[x l]|].
    - destruct Hinv as (Hl1 & Hlt & Hxt & Hx & Hsol).
      apply rbind_ok_inv in H as (z & F1 & H). apply chk_inv in F1 as [-> F1].
      rewrite (irem_ok i64 ltac:(cbn; lia) _ l F1 Hlt) in H; [|lia|unfold bad; lia]. cbn [mbind res_bind] in H.
      injection H as <-. cbn [crt_answer].
      pose proof (Z.rem_bound_pos (x + l) l ltac:(lia) ltac:(lia)). split; [assumption|].
      intros y. rewrite <- psol_all, Hsol.
      pose proof (Z.quot_rem (x + l) l ltac:(lia)) as Hq. set (r := Z.rem (x + l) l) in *. set (q := Z.quot (x + l) l) in *.
      split; intros [c Hc].
      + exists (c + q - 1). lia.
      + exists (c + 1 - q). lia.
    - injection H as <-. cbn. intros y Hy%psol_all. apply (Hinv y). exact Hy.
  Qed.

  (** Enough room for no overflow. *)
  Definition lcmZ (l : list Z) : Z := foldr Z.lcm 1 l.
  Lemma lcmZ_pos l : (forall i x, l !! i = Some x -> 0 < x) -> 1 <= lcmZ l.
  Proof.
    induction l as [|x l IH]; intros H; unfold lcmZ in *; cbn [foldr]; [lia|].
    pose proof (H 0%nat x eq_refl). pose proof (IH (fun i => H (S i))). pose proof (Z.lcm_nonneg x (foldr Z.lcm 1 l)).
    assert (Z.lcm x (foldr Z.lcm 1 l) <> 0); [|lia]. intros [E|E]%Z.lcm_eq_0; lia.
  Qed.
  Lemma lcmZ_in l i x : l !! i = Some x -> (x | lcmZ l).
  Proof.
    revert i. induction l as [|y l IH]; intros i H; [discriminate|]. unfold lcmZ in *. cbn [foldr]. destruct i as [|i].
    - injection H as ->. apply Z.divide_lcm_l.
    - etransitivity; [exact (IH i H)|apply Z.divide_lcm_r].
  Qed.
  Lemma lcmZ_take l i : (lcmZ (take i l) | lcmZ l).
  Proof.
    revert i. induction l as [|y l IH]; intros i; [destruct i; apply Z.divide_refl|]. destruct i as [|i]; [apply Z.divide_1_l|].
    unfold lcmZ in *. cbn [take foldr]. apply Z.lcm_least; [apply Z.divide_lcm_l|]. etransitivity; [apply IH|apply Z.divide_lcm_r].
  Qed.

  Context (Hroom : forall i ai bi, a !! i = Some ai -> b !! i = Some bi -> ai * lcmZ (take i m) + Z.abs bi < 2 ^ 63).
  Context (Hroom2 : 2 * lcmZ m <= 2 ^ 63).

  Lemma lcm_pos i : 1 <= lcmZ (take i m).
  Proof.
    apply lcmZ_pos. intros j x Hj. assert (m !! j = Some x) as H; [|apply (Hm _ _ H)].
    destruct (decide (j < i)%nat) as [Hl|Hl]; [rewrite lookup_take in Hj by exact Hl; exact Hj|rewrite lookup_take_ge in Hj by lia; discriminate].
  Qed.
  (** The modulus of the first i + 1 congruences. *)
  Lemma lcm_step i mi l g : m !! i = Some mi -> 1 <= l -> 1 <= g -> (Z.gcd l mi | g) -> (g | mi) -> (l | lcmZ (take i m)) -> (l * (mi / g) | lcmZ (take (i + 1) m)).
  Proof.
    intros E Hl Hg H1 H2 H3. assert ((l * (mi / g) | Z.lcm l mi)) as H.
    { destruct (Hm i mi E) as [Hmi _]. unfold Z.lcm. pose proof (Z.gcd_nonneg l mi) as Hn.
      assert (Z.gcd l mi <> 0) as Hz by (intros [Q _]%Z.gcd_eq_0; lia).
      assert (0 < mi / Z.gcd l mi) as Hq.
      { destruct (Z.gcd_divide_r l mi) as [c Hc]. rewrite Hc at 1. rewrite Z.div_mul by exact Hz. nia. }
      rewrite Z.abs_eq by nia. apply Z.mul_divide_mono_l. destruct H1 as [c Hc]. destruct H2 as [d Hd].
      assert (mi / g = d) as -> by (rewrite Hd; apply Z.div_mul; lia).
      assert (mi = (d * c) * Z.gcd l mi) as Q by (rewrite Hd at 1; rewrite Hc; ring).
      assert (mi / Z.gcd l mi = d * c) as -> by (rewrite Q at 1; apply Z.div_mul; exact Hz). apply Z.divide_factor_l. }
    etransitivity; [exact H|]. apply Z.lcm_least.
    - etransitivity; [exact H3|]. replace (take i m) with (take i (take (i + 1) m)) by (rewrite take_take; f_equal; lia). apply lcmZ_take.
    - apply (lcmZ_in _ i). rewrite lookup_take by lia. exact E.
  Qed.

  Lemma crt_step_ok i x l ai bi mi : a !! i = Some ai -> b !! i = Some bi -> m !! i = Some mi ->
    cinv i (Some (x, l)) -> (l | lcmZ (take i m)) ->
    exists s', ex_crt_body a b m i (Some (x, l)) = Ok s' /\
      match s' with Some (_, l') => (l' | lcmZ (take (i + 1) m)) | None => True end.
  Proof.
    intros E1 E2 E3 (Hl1 & Hlt & Hxt & Hx & Hsol) HlP. cbn [ex_crt_body].
    rewrite !(vget_ok a i ai E1), (vget_ok b i bi E2), (vget_ok m i mi E3). cbn [mbind res_bind].
    destruct (Ha i ai E1) as [Ha0 Hat]. destruct (Hm i mi E3) as [Hm0 Hmt].
    pose proof (Hroom i ai bi E1 E2) as HrA. pose proof (lcm_pos i) as Hpi. pose proof (lcm_pos (i + 1)) as HpS.
    assert (HlL : l <= lcmZ (take i m)) by (apply Z.divide_pos_le; [lia|exact HlP]).
    assert (HL : lcmZ (take (i + 1) m) <= lcmZ m) by (apply Z.divide_pos_le; [apply (Z.lt_le_trans _ 1); [lia|apply lcmZ_pos; intros j x0 Hj; apply (Hm _ _ Hj)]|apply lcmZ_take]).
    assert (Hal : ai * l <= ai * lcmZ (take i m)) by (apply Z.mul_le_mono_nonneg_l; lia).
    assert (Hax : Z.abs (ai * x) <= ai * lcmZ (take i m)).
    { rewrite Z.abs_mul, (Z.abs_eq ai) by lia. apply Z.mul_le_mono_nonneg_l; lia. }
    assert (HA0 : 0 <= ai * l) by nia.
    rewrite imul_ok by (rewrite i64_range; lia). cbn [mbind res_bind].
    rewrite imul_ok by (rewrite i64_range; lia). cbn [mbind res_bind].
    rewrite isub_ok by (rewrite i64_range; lia). cbn [mbind res_bind].
    assert (F1 : in_ty i64 (ai * l)) by (rewrite i64_range; lia).
    assert (F3 : in_ty i64 (bi - ai * x)) by (rewrite i64_range; lia).
    set (A := ai * l) in *. set (B := bi - ai * x) in *.
    destruct (ex_gcd_ok i64 ltac:(cbn; lia) A mi eq_refl F1 Hmt) as (y & z & g & E & Hbz & Hg & Hg0 & Hsm);
      [unfold bad; lia|unfold bad, it_min; cbn; lia|].
    rewrite E. cbn [mbind res_bind].
    specialize (Hg0 HA0 ltac:(lia)). rewrite (Z.abs_eq g Hg0) in *.
    assert (Hgp : 0 < g).
    { assert (g <> 0); [|lia]. rewrite Hg. intros [_ ?]%Z.gcd_eq_0. lia. }
    assert (Hgm : (g | mi)) by (rewrite Hg; apply Z.gcd_divide_r).
    assert (Hgle : g <= mi) by (apply Z.divide_pos_le; assumption).
    assert (Hgt : in_ty i64 g) by (rewrite i64_range in *; lia).
    rewrite (irem_ok i64 ltac:(cbn; lia) B g F3 Hgt); [|lia|unfold bad; lia]. cbn [mbind res_bind].
    destruct (Z.eqb_spec (Z.rem B g) 0) as [Hr|Hr]; cbn [negb]; [|eexists; split; [reflexivity|exact I]].
    rewrite (idiv_ok i64 ltac:(cbn; lia) B g F3 Hgt); [|lia|unfold bad; lia]. cbn [mbind res_bind].
    rewrite (idiv_ok i64 ltac:(cbn; lia) mi g Hmt Hgt); [|lia|unfold bad; lia]. cbn [mbind res_bind].
    rewrite (Z.quot_div_nonneg mi g) by lia. set (m' := mi / g) in *.
    assert (Hm' : mi = m' * g).
    { unfold m'. destruct Hgm as [c ->]. rewrite Z.div_mul by lia. reflexivity. }
    assert (Hm'p : 1 <= m') by nia. assert (Hm'le : m' <= mi) by nia.
    assert (Hy : Z.abs y <= mi).
    { destruct Hsm as [(? & _)|[(_ & _ & -> & _)|(_ & _ & Hy & _)]]; [lia|lia|]. rewrite (Z.abs_eq mi) in Hy by lia. clear - Hy Hgp Hm0. nia. }
    assert (HBq : Z.abs (Z.quot B g) <= Z.abs B).
    { destruct (rem_facts B g) as (_ & _ & E' & _); [lia|]. rewrite (Z.abs_eq g) in E' by lia. clear - E' Hgp. nia. }
    assert (F4 : in_ty i128 (y * Z.quot B g)).
    { rewrite i128_range. rewrite i64_range in *.
      assert (Hab : Z.abs (y * Z.quot B g) <= 2 ^ 63 * 2 ^ 63).
      { rewrite Z.abs_mul. apply Z.mul_le_mono_nonneg; lia. }
      rewrite <- Z.pow_add_r in Hab by lia. assert (2 ^ (63 + 63) < 2 ^ 127) by (apply Z.pow_lt_mono_r; lia). lia. }
    rewrite (imul_ok i128) by exact F4. cbn [mbind res_bind].
    assert (Hm't : in_ty i128 m').
    { rewrite i128_range. rewrite i64_range in *. assert (2 ^ 63 < 2 ^ 127) by (apply Z.pow_lt_mono_r; lia). lia. }
    rewrite (irem_ok i128 ltac:(cbn; lia) _ m' F4 Hm't); [|lia|unfold bad; lia]. cbn [mbind res_bind].
    set (t := Z.rem (y * Z.quot B g) m') in *.
    assert (Ht : Z.abs t < m').
    { pose proof (Z.rem_bound_abs (y * Z.quot B g) m' ltac:(lia)) as Q. fold t in Q. lia. }
    rewrite wrap_id; [|cbn; lia|rewrite i64_range in *; lia].
    assert (Hlt' : Z.abs (l * t) <= l * (m' - 1)).
    { rewrite Z.abs_mul, (Z.abs_eq l) by lia. apply Z.mul_le_mono_nonneg_l; lia. }
    assert (HlS : (l * m' | lcmZ (take (i + 1) m))).
    { unfold m'. apply lcm_step; try assumption; try lia. rewrite Hg. unfold A. apply Z.gcd_greatest; [|apply Z.gcd_divide_r].
      etransitivity; [apply Z.gcd_divide_l|apply Z.divide_factor_r]. }
    assert (Hlm : l * m' <= lcmZ (take (i + 1) m)) by (apply Z.divide_pos_le; [lia|exact HlS]).
    rewrite (imul_ok i64 l t) by (rewrite i64_range; lia). cbn [mbind res_bind].
    rewrite iadd_ok by (rewrite i64_range; lia). cbn [mbind res_bind].
    rewrite (imul_ok i64 l m') by (rewrite i64_range; lia). cbn [mbind res_bind].
    eexists. split; [reflexivity|]. exact HlS.
  Qed.

  Lemma ex_crt_total : exists o, ex_crt a b m = Ok o.
  Proof.
    unfold ex_crt.
    destruct (rfor_range_inv (fun i s => cinv i s /\ match s with Some (_, l) => (l | lcmZ (take i m)) | None => True end)
      0 (length a) (ex_crt_body a b m) (Some (0, 1))) as (s & E & Hinv & Hl).
    - lia.
    - split; [|apply Z.divide_1_l]. cbn. split; [lia|]. split; [rewrite i64_range; lia|]. split; [rewrite i64_range; lia|]. split; [lia|].
      intros y. split; [intros _; apply Z.divide_1_l|]. intros _ j aj bj mj Hj. lia.
    - intros i s0 Hi [I0 Hl0].
      destruct (lookup_lt_is_Some_2 a i) as [ai E1]; [lia|].
      destruct (lookup_lt_is_Some_2 b i) as [bi E2]; [lia|].
      destruct (lookup_lt_is_Some_2 m i) as [mi E3]; [lia|].
      destruct s0 as [[x l]|].
      + destruct (crt_step_ok i x l ai bi mi E1 E2 E3 I0 Hl0) as (s' & E & Hs'). exists s'. split; [exact E|].
        split; [|exact Hs']. eapply crt_step; eauto.
      + exists None. split; [reflexivity|]. split; [|exact I]. intros y Hy. apply (I0 y).
        rewrite (psol_S i y ai bi mi E1 E2 E3) in Hy. apply Hy.
    - unfold range. rewrite E. cbn [mbind res_bind]. destruct s as [[x l]|]; [|eauto].
      destruct Hinv as (Hl1 & Hlt & Hxt & Hx & Hsol). rewrite take_ge in Hl by lia.
      assert (l <= lcmZ m) as Hll by (apply Z.divide_pos_le; [apply (Z.lt_le_trans _ 1); [lia|apply lcmZ_pos; intros j x0 Hj; apply (Hm _ _ Hj)]|exact Hl]).
      assert (F1 : in_ty i64 (x + l)) by (rewrite i64_range; lia).
      rewrite iadd_ok by exact F1. cbn [mbind res_bind].
      rewrite (irem_ok i64 ltac:(cbn; lia) _ l F1 Hlt); [|lia|unfold bad; lia]. cbn [mbind res_bind]. eauto.
  Qed.
End Crt.

(** *** Any signs *)
Lemma irem_inv T a b r : irem T a b = Ok r -> b <> 0 /\ in_ty T (Z.quot a b) /\ r = Z.rem a b.
Proof.
  unfold irem. destruct (Z.eqb_spec b 0); [discriminate|]. intros (q & E & H)%rbind_ok_inv. apply chk_inv in E as [-> E]. injection H as <-. auto.
Qed.
Lemma idiv_inv T a b r : idiv T a b = Ok r -> b <> 0 /\ in_ty T (Z.quot a b) /\ r = Z.quot a b.
Proof. unfold idiv. destruct (Z.eqb_spec b 0); [discriminate|]. intros [-> E]%chk_inv. auto. Qed.
Lemma quot_exact x g : g <> 0 -> (g | x) -> x = Z.quot x g * g.
Proof. intros Hg [c ->]. rewrite Z.quot_mul by exact Hg. reflexivity. Qed.

Section CrtAny.
  Context (a b m : list Z).
  Context (Ha : forall i x, a !! i = Some x -> in_ty i64 x).
  Context (Hm : forall i x, m !! i = Some x -> in_ty i64 x).

  Definition cany (i : nat) (s : option (Z * Z)) : Prop :=
    match s with
    | Some (x, l) => Z.abs x < Z.abs l /\ in_ty i64 l /\ in_ty i64 x /\ (forall y, psol a b m i y <-> (l | y - x))
    | None => forall y, ~ psol a b m i y
    end.

  Lemma lin_any A' B' m' g y z k : g <> 0 -> A' * g * y + m' * g * z = g ->
    (m' * g | A' * g * k - B' * g) <-> (m' | k - y * B').
  Proof.
    intros Hg H. assert (HB : A' * y + m' * z = 1) by nia. clear H. split.
    - intros [c Hc]. assert (Hc' : A' * k - B' = c * m') by nia. clear Hc.
      exists (y * c + z * k). replace (k - y * B') with (k * (A' * y + m' * z) - y * B') by (rewrite HB; ring).
      transitivity (y * (A' * k - B') + m' * z * k); [ring|]. rewrite Hc'. ring.
    - intros [c Hc]. assert (k = y * B' + c * m') as -> by lia.
      exists (A' * c - z * B'). transitivity ((A' * y + m' * z - 1 + 1) * B' * g + A' * c * m' * g - B' * g - m' * z * B' * g); [ring|].
      rewrite HB. ring.
  Qed.

  Lemma cany_step i x l s' ai bi mi : a !! i = Some ai -> b !! i = Some bi -> m !! i = Some mi ->
    cany i (Some (x, l)) -> ex_crt_body a b m i (Some (x, l)) = Ok s' -> cany (i + 1) s'.
  Proof.
    intros E1 E2 E3 (Hx & Hlt & Hxt & Hsol) H. cbn [ex_crt_body] in H.
    rewrite !(vget_ok a i ai E1), (vget_ok b i bi E2), (vget_ok m i mi E3) in H. cbn [mbind res_bind] in H.
    pose proof (Ha i ai E1) as Hat. pose proof (Hm i mi E3) as Hmt.
    apply rbind_ok_inv in H as (a_ & F1 & H). apply chk_inv in F1 as [-> F1].
    apply rbind_ok_inv in H as (ax & F2 & H). apply chk_inv in F2 as [-> F2].
    apply rbind_ok_inv in H as (b_ & F3 & H). apply chk_inv in F3 as [-> F3].
    assert (Hkey : forall k, (mi | ai * (x + l * k) - bi) <-> (mi | ai * l * k - (bi - ai * x))).
    { intros k. replace (ai * (x + l * k) - bi) with (ai * l * k - (bi - ai * x)) by ring. reflexivity. }
    set (A := ai * l) in *. set (B := bi - ai * x) in *.
    destruct (decide (bad i64 A mi)) as [Hbad|B1]; [rewrite (ex_gcd_bad i64 ltac:(cbn; lia)) in H by auto; discriminate|].
    destruct (decide (bad i64 mi A)) as [Hbad|B2]; [rewrite (ex_gcd_bad i64 ltac:(cbn; lia)) in H by auto; discriminate|].
    destruct (ex_gcd_ok i64 ltac:(cbn; lia) A mi eq_refl F1 Hmt B1 B2) as (y & z & g & E & Hbz & Hg & _ & _).
    rewrite E in H. cbn [mbind res_bind] in H.
    apply rbind_ok_inv in H as (r & F4 & H). apply irem_inv in F4 as (Hg0 & Fq & ->).
    assert (HgA : (g | A)) by (apply Z.divide_abs_l; rewrite Hg; apply Z.gcd_divide_l).
    assert (Hgm : (g | mi)) by (apply Z.divide_abs_l; rewrite Hg; apply Z.gcd_divide_r).
    destruct (Z.eqb_spec (Z.rem B g) 0) as [Hr|Hr]; cbn [negb] in H.
    - assert (HgB : (g | B)) by (apply Z.rem_divide; assumption).
      apply rbind_ok_inv in H as (b1 & F5 & H). apply idiv_inv in F5 as (_ & _ & ->).
      apply rbind_ok_inv in H as (m' & F6 & H). apply idiv_inv in F6 as (_ & Hm't & Em).
      apply rbind_ok_inv in H as (p & F7 & H). apply chk_inv in F7 as [-> F7].
      apply rbind_ok_inv in H as (t & F8 & H). apply irem_inv in F8 as (Hm0 & _ & Et).
      pose proof (quot_exact A g Hg0 HgA) as QA. pose proof (quot_exact B g Hg0 HgB) as QB. pose proof (quot_exact mi g Hg0 Hgm) as QM.
      rewrite <- Em in QM. rewrite <- Em in Hm't. set (B' := Z.quot B g) in *. set (A' := Z.quot A g) in *.
      assert (Ht : Z.abs t < Z.abs m') by (rewrite Et; apply Z.rem_bound_abs; exact Hm0).
      rewrite wrap_id in H; [|cbn; lia|rewrite i64_range in *; lia].
      apply rbind_ok_inv in H as (d & G5 & H). apply chk_inv in G5 as [-> G5].
      apply rbind_ok_inv in H as (x' & G6 & H). apply chk_inv in G6 as [-> G6].
      apply rbind_ok_inv in H as (l' & G7 & H). apply chk_inv in G7 as [-> G7].
      injection H as <-. cbn [cany]. split; [|split; [exact G7|split; [exact G6|]]].
      + assert (Z.abs (x + l * t) <= Z.abs x + Z.abs l * Z.abs t) by (rewrite <- Z.abs_mul; apply Z.abs_triangle).
        rewrite Z.abs_mul. assert (Z.abs l * Z.abs t <= Z.abs l * (Z.abs m' - 1)) by (apply Z.mul_le_mono_nonneg_l; lia). lia.
      + assert (Htc : (m' | y * B' - t)).
        { exists (Z.quot (y * B') m'). pose proof (Z.quot_rem (y * B') m' Hm0). rewrite <- Et in H. lia. }
        assert (Hlin : forall k, (mi | A * k - B) <-> (m' | k - y * B')).
        { intros k. rewrite QA, QB, QM. apply lin_any with z; [exact Hg0|]. rewrite <- QA, <- QM. exact Hbz. }
        intros w. rewrite (psol_S a b m i w ai bi mi E1 E2 E3), Hsol. split.
        * intros [[k Hk] Hw]. assert (w = x + l * k) as -> by lia.
          rewrite Hkey, Hlin in Hw.
          assert (Hkt : (m' | k - t)) by (replace (k - t) with ((k - y * B') + (y * B' - t)) by ring; apply Z.divide_add_r; assumption).
          destruct Hkt as [c Hc]. exists c. replace (x + l * k - (x + l * t)) with (l * (k - t)) by ring. rewrite Hc. ring.
        * intros [c Hc]. assert (w = x + l * (t + m' * c)) as -> by lia. split.
          -- exists (t + m' * c). ring.
          -- rewrite Hkey, Hlin. replace (t + m' * c - y * B') with (m' * c - (y * B' - t)) by ring.
             apply Z.divide_sub_r; [apply Z.divide_factor_l|exact Htc].
    - injection H as <-. cbn [cany]. intros w Hw.
      rewrite (psol_S a b m i w ai bi mi E1 E2 E3), Hsol in Hw. destruct Hw as [[k Hk] Hw].
      assert (w = x + l * k) as -> by lia. rewrite Hkey in Hw.
      apply Hr, Z.rem_divide; [exact Hg0|]. replace B with (A * k - (A * k - B)) by ring.
      apply Z.divide_sub_r; [apply Z.divide_mul_l; exact HgA|]. eapply Z.divide_trans; eassumption.
  Qed.

  Lemma ex_crt_any o : length b = length a -> length m = length a -> ex_crt a b m = Ok o -> crt_solutions a b m o.
  Proof.
    intros Lb Lm. unfold ex_crt. intros (s & Hs & H)%rbind_ok_inv.
    assert (Hinv : cany (length a) s).
    { refine (rfor_range_post cany 0 (length a) (ex_crt_body a b m) (Some (0, 1)) s _ _ _ Hs).
      - lia.
      - cbn. split; [lia|]. split; [rewrite i64_range; lia|]. split; [rewrite i64_range; lia|].
        intros y. split; [intros _; apply Z.divide_1_l|]. intros _ j aj bj mj Hj. lia.
      - intros i s0 s1 Hi I0 E.
        destruct (lookup_lt_is_Some_2 a i) as [ai E1]; [lia|].
        destruct (lookup_lt_is_Some_2 b i) as [bi E2]; [lia|].
        destruct (lookup_lt_is_Some_2 m i) as [mi E3]; [lia|].
        destruct s0 as [[x l]|].
        + eapply cany_step; eauto.
        + cbn in E. injection E as <-. intros y Hy. apply (I0 y).
          rewrite (psol_S a b m i y ai bi mi E1 E2 E3) in Hy. apply Hy. }
    destruct s as [[x l]|].
    - destruct Hinv as (Hx & Hlt & Hxt & Hsol).
      apply rbind_ok_inv in H as (z & F1 & H). apply chk_inv in F1 as [-> F1].
      apply rbind_ok_inv in H as (r & F2 & H). apply irem_inv in F2 as (Hl0 & _ & Er).
      injection H as <-. cbn [crt_solutions]. split; [rewrite Er; apply Z.rem_bound_abs; exact Hl0|].
      intros y. rewrite <- psol_all, Hsol.
      pose proof (Z.quot_rem (x + l) l Hl0) as Hq. rewrite <- Er in Hq. set (q := Z.quot (x + l) l) in *.
      split; intros [c Hc].
      + exists (c + q - 1). lia.
      + exists (c + 1 - q). lia.
    - injection H as <-. cbn. intros y Hy%psol_all. apply (Hinv y). exact Hy.
  Qed.
End CrtAny.
(** *** Vectors of different lengths *)
Lemma crt_body_ends a b m i s : (forall j x, m !! j = Some x -> in_ty i64 x) -> ex_crt_body a b m i s <> Diverge.
Proof.
  intros Hm. destruct s as [[x l]|]; [|discriminate]. cbn [ex_crt_body].
  assert (forall T y (k : Z -> res (option (Z * Z))), (in_ty T y -> k y <> Diverge) -> (z ← chk T y; k z) <> Diverge) as C.
  { intros T y k H. destruct (chk T y) as [z| |] eqn:E; [|discriminate|unfold chk in E; destruct (_ && _) in E; discriminate]. apply chk_inv in E as [-> E]. apply H. exact E. }
  assert (forall (v : list Z) j (k : Z -> res (option (Z * Z))), (forall z, v !! j = Some z -> k z <> Diverge) -> (z ← vget v j; k z) <> Diverge) as V.
  { intros v j k H. unfold vget. destruct (v !! j); [apply H; reflexivity|discriminate]. }
  apply V; intros ai Ea. apply C; intros F1. apply V; intros bi Eb. apply V; intros ai' Ea'. apply C; intros F2. apply C; intros F3. apply V; intros mi Em.
  assert (forall T u v (k : Z -> res (option (Z * Z))), (forall z, k z <> Diverge) -> (z ← irem T u v; k z) <> Diverge) as R.
  { intros T u v k H. unfold irem. destruct (v =? 0); [discriminate|]. destruct (chk T (Z.quot u v)) as [q| |] eqn:E; [apply H|discriminate|unfold chk in E; destruct (_ && _) in E; discriminate]. }
  assert (forall T u v (k : Z -> res (option (Z * Z))), (forall z, k z <> Diverge) -> (z ← idiv T u v; k z) <> Diverge) as Q.
  { intros T u v k H. unfold idiv. destruct (v =? 0); [discriminate|]. apply C. intros _. apply H. }
  assert (exists r, ex_gcd i64 (ai * l) mi = r /\ r <> Diverge) as ([[[y y'] g]| |] & -> & Hg).
  { destruct (decide (bad i64 (ai * l) mi \/ bad i64 mi (ai * l))) as [B|B]; unfold bad in B.
    - exists Panic. split; [apply ex_gcd_bad; [cbn; lia|exact B]|discriminate].
    - destruct (ex_gcd_ok i64 ltac:(cbn; lia) (ai * l) mi eq_refl F1 (Hm _ _ Em)) as (y & z & g & -> & _); [intros B'; apply B; left; exact B'|intros B'; apply B; right; exact B'|].
      eexists. split; [reflexivity|discriminate]. }
  - cbn [mbind res_bind]. apply R. intros r. destruct (negb _); [discriminate|]. apply Q. intros B. apply Q. intros m'. apply C. intros _. apply R. intros t.
    apply C. intros _. apply C. intros _. apply C. intros _. discriminate.
  - discriminate.
  - contradiction.
Qed.

Lemma crt_body_short a b m i x l : (length b <= i \/ length m <= i)%nat -> (forall j y, m !! j = Some y -> in_ty i64 y) -> ex_crt_body a b m i (Some (x, l)) = Panic.
Proof.
  intros H Hm. cbn [ex_crt_body]. assert (forall T y, chk T y = Panic \/ exists z, chk T y = Ok z) as C by (intros T y; unfold chk; destruct (_ && _); eauto).
  unfold imul, isub.
  destruct (a !! i) as [ai|] eqn:Ea; [rewrite (vget_ok a i ai Ea)|apply lookup_ge_None in Ea; rewrite (vget_panic a) by exact Ea; reflexivity]. cbn [mbind res_bind].
  destruct (C i64 (ai * l)) as [->|[z1 ->]]; [reflexivity|]. cbn [mbind res_bind].
  destruct (b !! i) as [bi|] eqn:Eb; [rewrite (vget_ok b i bi Eb)|apply lookup_ge_None in Eb; rewrite (vget_panic b) by exact Eb; reflexivity]. cbn [mbind res_bind].
  rewrite ?(vget_ok a i ai Ea). cbn [mbind res_bind].
  destruct (C i64 (ai * x)) as [->|[z2 ->]]; [reflexivity|]. cbn [mbind res_bind]. destruct (C i64 (bi - z2)) as [->|[z3 ->]]; [reflexivity|]. cbn [mbind res_bind].
  rewrite (vget_panic m); [reflexivity|]. apply lookup_lt_Some in Eb. lia.
Qed.

Lemma crt_loop_ends a b m xs s : (forall j x, m !! j = Some x -> in_ty i64 x) -> rfor xs (ex_crt_body a b m) s <> Diverge.
Proof.
  intros Hm. revert s. induction xs as [|i xs IH]; intros s; [discriminate|]. cbn [rfor]. pose proof (crt_body_ends a b m i s Hm) as H.
  destruct (ex_crt_body a b m i s) as [s'| |]; [apply IH|discriminate|contradiction].
Qed.
Close Scope Z_scope.
