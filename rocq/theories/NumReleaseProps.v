(** Property theorem for the number-theoretic functions and the modint addition in the release profile (C75). *)
From Verif Require Import Prelude IntModel IMathSpec IMathProof NumModel NumSpec NumProof NumProps ModIntModel ModIntSpec ModIntProof NumReleaseModel.
Open Scope Z_scope.

Lemma wr_chk T x y : 0 < it_bits T -> chk T x = Ok y -> wrap T x = y.
Proof. intros H [-> Hx]%chk_inv. apply wrap_id; assumption. Qed.
Lemma wrap_cong T x : 0 < it_bits T -> exists k, wrap T x = x + k * 2 ^ it_bits T.
Proof.
  intros H. unfold wrap. exists (- ((x - it_min T) / 2 ^ it_bits T)).
  pose proof (Z.div_mod (x - it_min T) (2 ^ it_bits T) ltac:(apply Z.pow_nonzero; lia)). lia.
Qed.

Lemma ex_gcd_rec_same T fuel : 0 < it_bits T -> forall a b r, ex_gcd_rec T fuel a b = Ok r -> ex_gcd_rec_release T fuel a b = Ok r.
Proof.
  intros HT. induction fuel as [|fuel IH]; intros a b r E; [discriminate|]. cbn [ex_gcd_rec ex_gcd_rec_release] in *.
  destruct (b =? 0); [exact E|]. destruct (irem T a b) as [q| |]; [|discriminate..]. cbn [mbind res_bind] in *.
  destruct (ex_gcd_rec T fuel b q) as [[[x y] g]| |] eqn:Er; [|discriminate..]. rewrite (IH _ _ _ Er). cbn [mbind res_bind] in *.
  destruct (idiv T a b) as [d| |]; [|discriminate..]. cbn [mbind res_bind] in *.
  destruct (imul T d y) as [p| |] eqn:Ep; [|discriminate..]. cbn [mbind res_bind] in E.
  destruct (isub T x p) as [z| |] eqn:Ez; [|discriminate..]. cbn [mbind res_bind] in E.
  unfold wr_sub, wr_mul. rewrite (wr_chk _ _ _ HT Ep), (wr_chk _ _ _ HT Ez). exact E.
Qed.

(** The recursion of the release ex_gcd: the identity holds modulo 2^bits. *)
Lemma ex_gcd_rec_release_ok T (HT : 2 <= it_bits T) fuel : forall m a b, eu T m a b -> (m < fuel)%nat ->
  exists x y g, ex_gcd_rec_release T fuel a b = Ok (x, y, g) /\ (2 ^ it_bits T | a * x + b * y - g) /\ Z.abs g = Z.gcd a b /\
    (0 <= a -> 0 <= b -> 0 <= g) /\ in_ty T x /\ in_ty T y.
Proof.
  assert (in_ty T 1 /\ in_ty T 0) as [I1 I0].
  { pose proof (M_ge T HT). pose proof (bits_M T HT). unfold in_ty, it_min, it_max. destruct (it_signed T); lia. }
  induction fuel as [|fuel IH]; intros m a b He Hf; [lia|]. cbn [ex_gcd_rec_release].
  destruct (Z.eqb_spec b 0) as [->|Hb].
  - exists 1, 0, a. split; [reflexivity|]. split; [exists 0; lia|]. rewrite Z.gcd_0_r. auto.
  - destruct (eu_step T HT m a b He Hb) as (-> & m' & Hm & He'). cbn [mbind res_bind].
    destruct (IH m' b (Z.rem a b) He' ltac:(lia)) as (x & y & g & -> & [k Hk] & Hg & Hs & Hx & Hy). cbn [mbind res_bind].
    destruct He as (Ha & Hb' & B1 & _). rewrite (idiv_ok T HT a b Ha Hb' Hb B1). cbn [mbind res_bind].
    unfold wr_sub, wr_mul. eexists y, _, g. split; [reflexivity|]. split; [|split; [|split; [|split]]].
    + destruct (wrap_cong T (Z.quot a b * y) ltac:(lia)) as [k1 E1].
      destruct (wrap_cong T (x - wrap T (Z.quot a b * y)) ltac:(lia)) as [k2 E2]. rewrite E2, E1.
      exists (k - b * k1 + b * k2). pose proof (Z.quot_rem' a b) as Hq. rewrite Hq at 1. nia.
    + rewrite Hg. apply gcd_rem. exact Hb.
    + intros H1 H2. apply Hs; [exact H2|]. apply Z.rem_nonneg; lia.
    + exact Hy.
    + apply wrap_in. lia.
Qed.

(** ex_gcd: for every type, the unsigned ones too, the result satisfies the documented identity in the arithmetic of the type
    (modulo 2^bits); for signed types the call does in every case, panics included, what it does in the dev profile. *)
Theorem C75_ex_gcd : forall T, In T prim_types -> forall a b, in_ty T a -> in_ty T b ->
  (~ (it_signed T = true /\ ((a = it_min T /\ b = -1) \/ (a = -1 /\ b = it_min T))) ->
    exists x y g, ex_gcd_release T a b = Ok (x, y, g) /\ (2 ^ it_bits T | a * x + b * y - g) /\ Z.abs g = Z.gcd a b /\
      (0 <= a -> 0 <= b -> 0 <= g) /\ in_ty T x /\ in_ty T y) /\
  (it_signed T = true -> ex_gcd_release T a b = ex_gcd T a b) /\
  (forall r, ex_gcd T a b = Ok r -> ex_gcd_release T a b = Ok r).
Proof.
  intros T HT a b Ha Hb. pose proof (prim_bits T HT) as H2.
  assert (Hsame : forall r, ex_gcd T a b = Ok r -> ex_gcd_release T a b = Ok r).
  { intros r. unfold ex_gcd, ex_gcd_release. apply ex_gcd_rec_same. lia. }
  split; [|split; [|exact Hsame]].
  - intros Hn. unfold ex_gcd_release. apply (ex_gcd_rec_release_ok T H2 _ (Z.to_nat (2 * it_bits T + 1))).
    + apply eu_start; [exact H2|exact Ha|exact Hb|..]; intros (? & ? & ?); apply Hn; auto.
    + unfold euclid_fuel. lia.
  - intros Hs. destruct (decide ((a = it_min T /\ b = -1) \/ (b = it_min T /\ a = -1))) as [Hb'|Hn].
    + rewrite (ex_gcd_bad T H2 a b) by (unfold bad; tauto).
      assert (Hg : gcd T a b = Panic) by (apply (gcd_bad T H2); unfold bad; tauto).
      revert Hg. clear. unfold gcd, ex_gcd_release. generalize (euclid_fuel T) as fuel. intros fuel. revert a b.
      induction fuel as [|fuel IH]; intros a b; cbn [rloop ex_gcd_rec_release]; [discriminate|].
      change (gcd_step T (a, b)) with (if b =? 0 then Ok (inr a) else r ← irem T a b; Ok (inl (b, r))).
      destruct (Z.eqb_spec b 0) as [->|Hb]; [discriminate|].
      destruct (irem T a b) as [r| |] eqn:E; cbn [mbind res_bind]; try congruence.
      intros H. rewrite (IH b r H). reflexivity.
    + destruct (C33_ex_gcd T HT Hs a b Ha Hb) as (x & y & g & E & _); [tauto|]. rewrite E. apply Hsame. exact E.
Qed.
Print Assumptions C75_ex_gcd.

(** lcm of non-negative values never panics (except both zero) and is right exactly when the product fits the type, even if the
    least common multiple itself would fit. *)
Theorem C75_lcm : forall T, In T prim_types -> forall a b, in_ty T a -> in_ty T b -> 0 <= a -> 0 <= b -> 0 < a \/ 0 < b ->
  exists r, lcm_release T a b = Ok r /\ (r = Z.lcm a b <-> in_ty T (a * b)).
Proof.
  intros T HT a b Ha Hb Pa Pb Hpos. pose proof (prim_bits T HT) as H2.
  assert (N : forall x y, 0 <= y -> ~ bad T x y) by (unfold bad; intros; lia).
  unfold lcm_release, wr_mul. destruct (gcd_ok T H2 a b Ha Hb (N a b Pb) (N b a Pa)) as (g & -> & Hg & Hg0 & Hgt).
  cbn [mbind res_bind]. specialize (Hg0 Pa Pb). rewrite Z.abs_eq in Hg by exact Hg0.
  assert (Hn : g <> 0) by (rewrite Hg; intros H0%Z.gcd_eq_0; lia).
  rewrite (idiv_ok T H2); [|apply wrap_in; lia|exact Hgt|exact Hn|apply N; lia].
  eexists. split; [reflexivity|].
  assert (El : a * b = Z.lcm a b * g).
  { unfold Z.lcm. rewrite Hg. rewrite Z.abs_eq by (apply Z.mul_nonneg_nonneg; [lia|apply Z.div_pos; lia]).
    destruct (Z.gcd_divide_r a b) as [k Hk]. assert (b / Z.gcd a b = k) as -> by (rewrite Hk at 1; apply Z.div_mul; congruence).
    rewrite Hk at 1. ring. }
  split.
  - intros Hq. pose proof (wrap_in T (a * b) ltac:(lia)) as Hw. destruct (wrap_cong T (a * b) ltac:(lia)) as [k Hk].
    destruct (decide (k = 0)) as [->|Hk0]; [rewrite Z.mul_0_l, Z.add_0_r in Hk; rewrite <- Hk; exact Hw|].
    exfalso. pose proof (Z.quot_rem' (wrap T (a * b)) g) as Hr. rewrite Hq in Hr.
    pose proof (Z.rem_bound_abs (wrap T (a * b)) g Hn) as Hb'. pose proof (in_ty_abs T H2 g Hgt).
    assert (Z.rem (wrap T (a * b)) g = k * 2 ^ it_bits T) by lia.
    assert (2 ^ it_bits T <= Z.abs (k * 2 ^ it_bits T)); [|lia].
    rewrite Z.abs_mul. pose proof (Z.pow_pos_nonneg 2 (it_bits T) ltac:(lia) ltac:(lia)). rewrite (Z.abs_eq (2 ^ _)) by lia. nia.
  - intros Hab. rewrite wrap_id by (assumption || lia). rewrite El. apply Z.quot_mul. exact Hn.
Qed.
Print Assumptions C75_lcm.

(** Any signs: the same as in the dev profile when that one does not panic; when the product does not fit, what comes back is
    never the quotient of the product by the gcd. *)
Theorem C75_lcm_any : forall T, In T prim_types -> forall a b, in_ty T a -> in_ty T b ->
  (in_ty T (a * b) -> lcm_release T a b = lcm T a b) /\
  (~ in_ty T (a * b) -> forall r g, lcm_release T a b = Ok r -> gcd T a b = Ok g -> r * g <> a * b).
Proof.
  intros T HT a b Ha Hb. pose proof (prim_bits T HT) as H2. unfold lcm_release, lcm, wr_mul, imul. split.
  - intros Hab. rewrite chk_ok by exact Hab. rewrite wrap_id by (assumption || lia). reflexivity.
  - intros Hab r g E Eg. rewrite Eg in E. cbn [mbind res_bind] in E. apply idiv_inv in E as (Hn & _ & ->).
    intros Hq. pose proof (wrap_in T (a * b) ltac:(lia)) as Hw. destruct (wrap_cong T (a * b) ltac:(lia)) as [k Hk].
    destruct (decide (k = 0)) as [->|Hk0]; [rewrite Z.mul_0_l, Z.add_0_r in Hk; rewrite <- Hk in Hab; contradiction|].
    pose proof (Z.quot_rem' (wrap T (a * b)) g) as Hr.
    pose proof (Z.rem_bound_abs (wrap T (a * b)) g Hn) as Hb'.
    assert (Hgt : in_ty T g).
    { assert (Decision (bad T a b \/ bad T b a)) as Dec by (unfold bad; apply _). destruct Dec as [Hbad|Hbad].
      - rewrite (gcd_bad T H2 a b Hbad) in Eg. discriminate.
      - destruct (gcd_ok T H2 a b Ha Hb) as (g' & E' & _ & _ & Hg'); [tauto..|]. rewrite E' in Eg. injection Eg as <-. exact Hg'. }
    pose proof (in_ty_abs T H2 g Hgt).
    assert (Z.rem (wrap T (a * b)) g = k * 2 ^ it_bits T) by lia.
    assert (2 ^ it_bits T <= Z.abs (k * 2 ^ it_bits T)); [|lia].
    rewrite Z.abs_mul. pose proof (Z.pow_pos_nonneg 2 (it_bits T) ltac:(lia) ltac:(lia)). rewrite (Z.abs_eq (2 ^ _)) by lia. nia.
Qed.
Print Assumptions C75_lcm_any.

Lemma ex_crt_body_same a b m i s s' : ex_crt_body a b m i s = Ok s' -> ex_crt_body_release a b m i s = Ok s'.
Proof.
  assert (H64 : 0 < it_bits i64) by (cbn; lia). assert (H128 : 0 < it_bits i128) by (cbn; lia).
  unfold ex_crt_body, ex_crt_body_release, imul, isub, iadd, wr_mul, wr_sub, wr_add. destruct s as [[x l]|]; [|auto].
  intros H. apply rbind_ok_inv in H as (ai & -> & H). cbn [mbind res_bind].
  apply rbind_ok_inv in H as (a_ & Ea & H). rewrite (wr_chk _ _ _ H64 Ea).
  apply rbind_ok_inv in H as (bi & -> & H). cbn [mbind res_bind].
  apply rbind_ok_inv in H as (ai' & Eai & H). injection Eai as <-.
  apply rbind_ok_inv in H as (ax & Ex & H). rewrite (wr_chk _ _ _ H64 Ex).
  apply rbind_ok_inv in H as (b_ & Eb & H). rewrite (wr_chk _ _ _ H64 Eb).
  apply rbind_ok_inv in H as (mi & -> & H). cbn [mbind res_bind].
  apply rbind_ok_inv in H as ([[y z] g] & Eg & H). unfold ex_gcd_release. rewrite (ex_gcd_rec_same _ _ H64 _ _ _ Eg). cbn [mbind res_bind].
  apply rbind_ok_inv in H as (r & -> & H). cbn [mbind res_bind]. destruct (negb (r =? 0)); [exact H|].
  apply rbind_ok_inv in H as (b1 & -> & H). cbn [mbind res_bind].
  apply rbind_ok_inv in H as (m1 & -> & H). cbn [mbind res_bind].
  apply rbind_ok_inv in H as (p & Ep & H). rewrite (wr_chk _ _ _ H128 Ep).
  apply rbind_ok_inv in H as (t & -> & H). cbn [mbind res_bind].
  apply rbind_ok_inv in H as (d & Ed & H). rewrite (wr_chk _ _ _ H64 Ed).
  apply rbind_ok_inv in H as (x1 & E1 & H). rewrite (wr_chk _ _ _ H64 E1).
  apply rbind_ok_inv in H as (l1 & E2 & H). rewrite (wr_chk _ _ _ H64 E2). exact H.
Qed.
Lemma rfor_same {A S} (f g : A -> S -> res S) l : (forall x s s', f x s = Ok s' -> g x s = Ok s') ->
  forall s s', rfor l f s = Ok s' -> rfor l g s = Ok s'.
Proof.
  intros Hfg. induction l as [|x l IH]; intros s s' H; [exact H|]. cbn [rfor] in *.
  apply rbind_ok_inv in H as (s1 & E1 & H). rewrite (Hfg _ _ _ E1). cbn [mbind res_bind]. apply IH. exact H.
Qed.

(** ex_crt: a call that the dev profile answers is answered the same, hence with the exact solution set. *)
Theorem C75_ex_crt : forall a b m o, ex_crt a b m = Ok o -> ex_crt_release a b m = Ok o.
Proof.
  intros a b m o H. unfold ex_crt, ex_crt_release in *. apply rbind_ok_inv in H as (s & E & H).
  rewrite (rfor_same _ _ _ (ex_crt_body_same a b m) _ _ E). cbn [mbind res_bind]. destruct s as [[x l]|]; [|exact H].
  apply rbind_ok_inv in H as (z & Ez & H). unfold wr_add. rewrite (wr_chk i64 _ _ ltac:(cbn; lia) Ez). exact H.
Qed.
Print Assumptions C75_ex_crt.

(** Where the dev profile panics on overflow the release build can answer with an x that solves nothing:
    x = 1 (mod 2^32), x = 2 (mod 3^21). *)
Theorem C75_ex_crt_wrong : exists a b m x l, ex_crt a b m = Panic /\ ex_crt_release a b m = Ok (Some (x, l)) /\
  Forall (fun x => 0 < x) m /\ ~ solves a b m x.
Proof.
  exists [1; 1], [1; 2], [2 ^ 32; 3 ^ 21], (-3810286339794927615), 8033386764074745856.
  split; [vm_compute; reflexivity|]. split; [vm_compute; reflexivity|].
  split; [repeat constructor|]. intros H. specialize (H 1%nat 1 2 (3 ^ 21) eq_refl eq_refl eq_refl).
  apply Z.mod_divide in H; [|discriminate]. vm_compute in H. discriminate.
Qed.
Print Assumptions C75_ex_crt_wrong.

(** Addition of two residues: as in the dev profile for moduli up to 2^31; above, it never panics and is wrong exactly when the
    sum reaches 2^32. *)
Theorem C75_modint_add : forall m a b, 1 <= m < 2 ^ 32 -> 0 <= a < m -> 0 <= b < m ->
  (m <= 2 ^ 31 -> mi_add_release m a b = mi_add m a b) /\
  exists v, mi_add_release m a b = Ok v /\ 0 <= v < m /\ (mod_of (a + b) m v <-> a + b < 2 ^ 32).
Proof.
  intros m a b Hm Ha Hb. unfold mi_add_release, mi_add, wr_add, wr_sub, iadd, isub. split.
  - intros H31. rewrite chk_ok by (rewrite u32_range; lia). cbn [mbind res_bind].
    rewrite (wrap_id u32) by (rewrite ?u32_range; cbn; lia). destruct (Z.leb_spec m (a + b)); [|reflexivity].
    rewrite chk_ok by (rewrite u32_range; lia). rewrite (wrap_id u32) by (rewrite ?u32_range; cbn; lia). reflexivity.
  - rewrite wrap_u32. destruct (Z_lt_le_dec (a + b) (2 ^ 32)) as [Hlt|Hge].
    + rewrite Z.mod_small by lia. destruct (Z.leb_spec m (a + b)).
      * rewrite (wrap_id u32) by (rewrite ?u32_range; cbn; lia). eexists. split; [reflexivity|]. split; [lia|].
        split; [lia|]. intros _. split; [lia|]. exists 1. lia.
      * eexists. split; [reflexivity|]. split; [lia|]. split; [lia|]. intros _. split; [lia|]. exists 0. lia.
    + assert ((a + b) mod 2 ^ 32 = a + b - 2 ^ 32) as -> by (symmetry; apply (Z.mod_unique _ _ 1); lia).
      destruct (Z.leb_spec m (a + b - 2 ^ 32)); [lia|]. eexists. split; [reflexivity|]. split; [lia|].
      split; [|lia]. intros [_ [k Hk]]. exfalso. assert (k <= -2 \/ k = -1 \/ k = 0 \/ k = 1 \/ 2 <= k) as [?|[->|[->|[->|?]]]] by lia; nia.
Qed.
Print Assumptions C75_modint_add.

Example C75_nonvacuous :
  ex_gcd_release i64 240 46 = Ok (-9, 47, 2) /\ ex_gcd u8 240 46 = Panic /\ ex_gcd_release u8 240 46 = Ok (247, 47, 2) /\
  (240 * 247 + 46 * 47) mod 256 = 2 /\
  lcm_release i8 16 8 = Ok (-16) /\ Z.lcm 16 8 = 16 /\ lcm_release u8 12 18 = Ok 36 /\ lcm_release u8 20 20 = Ok 7 /\
  lcm_release i8 (-128) 127 = Panic /\
  ex_crt_release [1; 2] [2; 4] [3; 10] = ex_crt [1; 2] [2; 4] [3; 10] /\ ex_crt [1; 2] [2; 4] [3; 10] = Ok (Some (2, 15)) /\
  mi_add_release (2 ^ 32 - 5) (2 ^ 31) (2 ^ 31) = Ok 0 /\ mi_add (2 ^ 32 - 5) (2 ^ 31) (2 ^ 31) = Panic /\
  (2 ^ 31 + 2 ^ 31) mod (2 ^ 32 - 5) = 5.
Proof. repeat split; vm_compute; reflexivity. Qed.
Close Scope Z_scope.
