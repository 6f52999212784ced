(** Step counts of is_prime, primitive_root and ex_crt. *)
From stdpp Require Import relations.
From Coq Require Import Znumtheory.
From Verif Require Import Prelude Eff EffSpec IntModel NumModel NumProof IMathModel IMathSpec IMathProof IMathRoot GraphWorkModel GraphWorkSpec GraphWorkProof NumWorkModel NumWorkSpec NumWorkProof.
Open Scope Z_scope.

(** ** ex_crt *)
Lemma ex_gcd_calls a b : in_ty i64 a -> in_ty i64 b -> costs 92 (fun _ => 0%nat) (ex_gcdW i64 a b) (ex_gcd i64 a b).
Proof.
  intros Ha Hb. assert (In i64 prim_types) as HT by (cbn; auto 8). destruct (euclid_takes i64 ltac:(cbn; lia) a b Ha Hb) as (k & Hk & _ & _ & H).
  apply (euc_most i64) in Hk; [|assumption..]. change (euclid_most i64) with 91%nat in Hk. eapply spends_weak; [apply takes_costs, H|lia|auto].
Qed.
Lemma costs_frame {A} c k (q : A -> nat) (m : eff nat A) r : costs c q m r -> costs (c + k) (fun a => q a + k)%nat m r.
Proof. intros H w. specialize (H w). destruct r as [a| |]; [|exact H..]. destruct H as (w' & j & E & N & L). exists w', j. repeat split; auto. lia. Qed.
Ltac clift := apply spends_lift_bind; intros ? ?.
Lemma ex_crt_body_calls a b m i s : (forall i x, m !! i = Some x -> in_ty i64 x) -> costs 92 (fun _ => 0%nat) (ex_crt_bodyW a b m i s) (ex_crt_body a b m i s).
Proof.
  intros Hm. destruct s as [[x l]|]; [|apply spends_ret; lia]. unfold ex_crt_bodyW, ex_crt_body.
  clift. apply spends_lift_bind. intros a_ [-> Ha]%chk_inv. do 4 clift. apply spends_lift_bind. intros m_ Em.
  apply (spends_part_bind one_step 92 _ 0); [apply ex_gcd_calls; [exact Ha|]|lia|].
  - apply vget_ok_iff in Em. eapply Hm. eassumption.
  - intros [[y z] g] _. clift. destruct (negb _); [apply spends_ret; lia|]. do 7 clift. apply spends_ret. lia.
Qed.
Lemma ex_crt_calls a b m : (forall i x, m !! i = Some x -> in_ty i64 x) -> costs (92 * length a) (fun _ => 0%nat) (ex_crtW a b m) (ex_crt a b m).
Proof.
  intros Hm. unfold ex_crtW, ex_crt. apply (spends_part_bind one_step (92 * length a) _ 0); [|lia|].
  - eapply (spends_for one_step _ 92); [intros; apply ex_crt_body_calls, Hm|]. unfold range. rewrite seq_length. lia.
  - intros [[x l]|] _; [|apply spends_ret; lia]. do 2 clift. apply spends_ret. lia.
Qed.

(** ** Removing a factor *)
Lemma bitlen_mono a b : 0 <= a <= b -> (bitlen a <= bitlen b)%nat.
Proof.
  intros H. unfold bitlen. destruct (Z.eqb_spec a 0); [lia|]. destruct (Z.eqb_spec b 0); [lia|]. pose proof (Z.log2_le_mono a b ltac:(lia)). lia.
Qed.
Lemma bitlen_double t : 0 < t -> bitlen (2 * t) = S (bitlen t).
Proof. intros H. rewrite bitlen_half by lia. rewrite Z.mul_comm, Z.div_mul by lia. reflexivity. Qed.

Section Strip.
  Context (T : ity) (i : Z) (Hi : 2 <= i).
  Let step (x : Z) : res (Z + Z) := r ← irem T x i; if r =? 0 then x ← idiv T x i; Ok (inl x) else Ok (inr x).
  Let stepW (x : Z) : eff nat (Z + Z) := r <* elift (irem T x i) ;* if r =? 0 then tick ;;* x <* elift (idiv T x i) ;* eret (inl x) else eret (inr x).
  Lemma strip_next x o : 0 < x -> step x = Ok o -> match o with inl y => 0 < y /\ 2 * y <= x | inr y => y = x end.
  Proof.
    intros Hx. unfold step. intros (r & E & E2)%rbind_ok_inv. apply irem_val in E as ->; [|lia]. destruct (Z.eqb_spec (Z.rem x i) 0) as [E0|]; [|injection E2 as <-; reflexivity].
    apply rbind_ok_inv in E2 as (y & E2 & [= <-]). unfold idiv in E2. rewrite (proj2 (Z.eqb_neq i 0)) in E2 by lia. apply chk_inv in E2 as [-> _].
    pose proof (Z.quot_rem x i ltac:(lia)) as Q. rewrite E0 in Q. nia.
  Qed.
  Lemma strip_cost fuel x : 0 < x -> costs (bitlen x) bitlen (eloop fuel stepW x) (rloop fuel step x).
  Proof.
    apply (spends_loop one_step (fun x => 0 < x) bitlen).
    - clear x. intros x Hx. unfold stepW. pose proof (strip_next x) as N. unfold step in *. apply spends_lift_bind. intros r Er. rewrite Er in N. cbn [mbind res_bind] in N.
      destruct (r =? 0) eqn:E0; [|apply spends_ret; lia].
      destruct (idiv T x i) as [y| |] eqn:Ey; [|intros w; reflexivity..].
      specialize (N _ Hx eq_refl). cbn in N. apply (costs_tick _ (bitlen y)).
      + pose proof (bitlen_double y). pose proof (bitlen_mono (2 * y) x). lia.
      + apply spends_lift_bind. intros ? [= <-]. apply spends_ret. lia.
    - intros s s' Hs E. apply strip_next in E; [|exact Hs]. tauto.
  Qed.
  Lemma strip_pos fuel : forall x y, 0 < x -> rloop fuel step x = Ok y -> 0 < y <= x.
  Proof.
    induction fuel as [|fuel IH]; intros x y Hx; [discriminate|]. cbn [rloop]. intros (o & E & E2)%rbind_ok_inv. apply strip_next in E; [|exact Hx].
    destruct o as [x'|x']; [|injection E2 as <-; subst; lia]. apply IH in E2; lia.
  Qed.
End Strip.

(** ** is_prime *)
Lemma sq_cost n fuel : forall t y, 1 < n < 2 ^ 31 -> 0 < t -> (exists j, 0 <= j /\ n - 1 = 2 ^ j * t) ->
  costs (bitlen (n - 1) - bitlen t) (fun _ => 0%nat) (eloop fuel (sq_stepW n) (t, y)) (rloop fuel (sq_step n) (t, y)).
Proof.
  induction fuel as [|fuel IH]; intros t y Hn Ht (j & Hj & E); [intros w; reflexivity|]. cbn [eloop rloop].
  assert (0 < 2 ^ j) by (apply Z.pow_pos_nonneg; lia).
  destruct (Z.eqb_spec t (n - 1)) as [Et|Et].
  { unfold sq_stepW, sq_step. rewrite (proj2 (Z.eqb_eq _ _) Et). cbn [negb andb]. apply (spends_ret one_step _ (fun _ => 0%nat) (t, y)). lia. }
  assert (1 <= j) as Hj1 by (destruct (decide (j = 0)) as [->|]; [rewrite Z.pow_0_r in E; lia|lia]).
  assert (n - 1 = 2 ^ (j - 1) * (2 * t)) as E'. { replace j with (Z.succ (j - 1)) in E by lia. rewrite Z.pow_succ_r in E by lia. lia. }
  assert (0 < 2 ^ (j - 1)) by (apply Z.pow_pos_nonneg; lia).
  assert (2 * t <= n - 1) by nia.
  apply (spends_bind one_step _ (fun o => match o with inl (t', _) => (bitlen (n - 1) - bitlen t')%nat | inr _ => 0%nat end)).
  - unfold sq_stepW, sq_step. destruct (negb _ && negb _ && negb _)%bool; [|apply spends_ret; lia].
    pose proof (bitlen_double t Ht). pose proof (bitlen_mono (2 * t) (n - 1)).
    apply (costs_tick _ (bitlen (n - 1) - bitlen (2 * t))); [lia|]. do 2 clift. apply spends_ret.
    rewrite Z.shiftl_mul_pow2 by lia. change (2 ^ 1) with 2. rewrite wrap_i64 by lia. rewrite Z.mul_comm. lia.
  - intros [[t' y']|r] Er; [|apply spends_ret; lia]. unfold sq_step in Er. destruct (negb _ && negb _ && negb _)%bool; [|discriminate].
    apply rbind_ok_inv in Er as (p & _ & Er). apply rbind_ok_inv in Er as (z & _ & [= <- <-]).
    rewrite Z.shiftl_mul_pow2 by lia. change (2 ^ 1) with 2. rewrite wrap_i64 by lia. rewrite Z.mul_comm. apply IH; [lia|lia|]. exists (j - 1). split; [lia|exact E'].
Qed.

Lemma is_prime_cost n : in_ty i32 n -> 0 <= n -> costs (6 * bitlen n) (fun _ => 0%nat) (is_primeW n) (is_prime n).
Proof.
  rewrite i32_range. intros Hn Hn0. unfold is_primeW, is_prime. destruct (Z.leb_spec n 1); [apply spends_ret; lia|].
  destruct (_ || _); [apply spends_ret; lia|]. apply spends_lift_bind. intros r Er. destruct (r =? 0); [apply spends_ret; lia|].
  apply spends_lift_bind. intros d0 [-> _]%chk_inv.
  set (B := bitlen (n - 1)). assert (B <= bitlen n)%nat by (apply bitlen_mono; lia).
  eapply (spends_weak one_step (B + 5 * B) _ (fun _ => 0%nat)); [|lia|auto].
  apply (spends_bind one_step _ (fun d => bitlen d + 5 * B)%nat).
  - apply costs_frame. apply strip_cost; lia.
  - intros d Ed. assert (0 < d <= n - 1) as Hd by (eapply (strip_pos i64 2); [lia|lia|exact Ed]).
    assert (exists j, 0 <= j /\ n - 1 = 2 ^ j * d) as Hj.
    { destruct (strip_loop i64 2 (fun d => r ← irem i64 d 2; if r =? 0 then d ← idiv i64 d 2; Ok (inl d) else Ok (inr d)))
        with (fuel := 64%nat) (x := n - 1) as (k & y & Hk & Ex & _ & _ & Hl); [cbn; lia|rewrite i64_range; lia|lia|reflexivity|rewrite i64_range; lia| |].
      - change (2 ^ Z.of_nat 64) with (2 ^ 64). lia.
      - unfold strip_twos in Ed. rewrite Hl in Ed. injection Ed as <-. eauto. }
    assert (bitlen d <= B)%nat by (apply bitlen_mono; lia). pose proof (ones_le d).
    eapply (spends_for one_step _ (B + ones d)); [|cbn [length]; lia]. intros a [] _; [|apply spends_ret; lia].
    unfold passes_baseW, passes_base. apply (spends_part_bind one_step (bitlen d + ones d) _ (B - bitlen d)); [|lia|].
    + eapply spends_weak; [apply takes_costs, pow_mod_takes; [lia|rewrite i64_range; lia]| |auto]. destruct (_ =? _); lia.
    + intros y _. apply (spends_part_bind one_step (B - bitlen d) _ 0); [apply sq_cost; [lia|lia|exact Hj]|lia|]. intros [t z] _. clift. apply spends_ret. lia.
Qed.

(** ** primitive_root *)
Definition fpot (R : Z) (s : Z * Z * nat * list Z) : nat := let '(i, x, _, _) := s in (Z.to_nat ((R + 2 - i) / 2) + 1 + bitlen x)%nat.
Definition finv (R : Z) (s : Z * Z * nat * list Z) : Prop := let '(i, x, cnt, divs) := s in 3 <= i /\ 0 < x /\ Z.sqrt x <= R /\ (cnt <= 20)%nat /\ length divs = 20%nat.

Lemma factor_cost R s : finv R s -> costs (fpot R s) (fun o => match o with inl s' => fpot R s' | inr _ => 0%nat end) (factor_stepW s) (factor_step s).
Proof.
  destruct s as [[[i x] cnt] divs]. intros (Hi & Hx & HR & Hc & HL). unfold factor_stepW, factor_step, fpot.
  destruct (negb _); [apply spends_ret; lia|]. apply (costs_tick _ (Z.to_nat ((R + 2 - i) / 2) + bitlen x)); [lia|].
  apply spends_lift_bind. intros sq [-> _]%chk_inv. destruct (Z.ltb_spec x (i * i)) as [|Hge]; [apply spends_ret; lia|].
  assert (i <= R) as HiR by (apply Z.sqrt_le_square in Hge; lia).
  assert ((R + 2 - i) / 2 = (R + 2 - (i + 2)) / 2 + 1) as E by (replace (R + 2 - i) with (R + 2 - (i + 2) + 1 * 2) by lia; apply Z.div_add; lia).
  assert (0 <= (R + 2 - (i + 2)) / 2) as E0 by (apply Z.div_pos; lia).
  apply spends_lift_bind. intros r _. destruct (r =? 0).
  - apply spends_lift_bind. intros divs' _.
    replace (Z.to_nat ((R + 2 - i) / 2) + bitlen x)%nat with (bitlen x + (Z.to_nat ((R + 2 - (i + 2)) / 2) + 1))%nat by lia.
    apply (spends_bind one_step _ (fun y => bitlen y + (Z.to_nat ((R + 2 - (i + 2)) / 2) + 1))%nat).
    + apply costs_frame. apply strip_cost; lia.
    + intros y _. apply spends_ret. lia.
  - apply spends_ret. lia.
Qed.
Lemma factor_next R s o : finv R s -> factor_step s = Ok o ->
  match o with inl s' => finv R s' | inr (x, cnt, divs) => 0 < x /\ (cnt <= 20)%nat /\ length divs = 20%nat end.
Proof.
  destruct s as [[[i x] cnt] divs]. intros (Hi & Hx & HR & Hc & HL). unfold factor_step.
  destruct (negb _); [intros [= <-]; auto|]. intros (sq & _ & E)%rbind_ok_inv. destruct (x <? sq); [injection E as <-; auto|].
  apply rbind_ok_inv in E as (r & _ & E). destruct (r =? 0); [|injection E as <-; unfold finv; repeat split; try assumption; lia].
  apply rbind_ok_inv in E as (divs' & Ed & E). apply rbind_ok_inv in E as (y & Ey & [= <-]).
  apply (strip_pos i32 i) in Ey; [|lia..].
  unfold vset in Ed. destruct (decide (cnt < length divs)%nat) as [Hlt|]; [|discriminate]. injection Ed as <-.
  assert (length (<[cnt:=i]> divs) = length divs) as HL' by apply insert_length.
  unfold finv. repeat split; try lia. pose proof (Z.sqrt_le_mono y x). lia.
Qed.
Lemma factor_loop_next R fuel : forall s x cnt divs, finv R s -> rloop fuel factor_step s = Ok (x, cnt, divs) -> 0 < x /\ (cnt <= 20)%nat /\ length divs = 20%nat.
Proof.
  induction fuel as [|fuel IH]; intros s x cnt divs Hs; [discriminate|]. cbn [rloop]. intros (o & Eo & E)%rbind_ok_inv. apply (factor_next R) in Eo; [|exact Hs].
  destruct o as [s'|[[x' cnt'] divs']]; [eapply IH; eassumption|]. injection E as <- <- <-. exact Eo.
Qed.

Lemma prime_divs_cost m : 3 <= m -> costs (bitlen (m / 2) + Z.to_nat ((Z.sqrt (m / 2) + 1) / 2)) (fun _ => 0%nat) (prime_divsW m) (prime_divs m).
Proof.
  intros Hm. unfold prime_divsW, prime_divs. apply spends_lift_bind. intros divs Ed.
  assert (length divs = 20%nat) as HL by (vm_compute in Ed; injection Ed as <-; reflexivity).
  apply spends_lift_bind. intros m1 [-> _]%chk_inv. apply spends_lift_bind. intros x Ex. cbn [Z.eqb idiv] in Ex. apply chk_inv in Ex as [-> _].
  rewrite Z.quot_div_nonneg by lia. set (h := (m - 1) / 2). assert (1 <= h) as Hh by (apply Z.div_le_lower_bound; lia). assert (h <= m / 2) as Hh2 by (apply Z.div_le_mono; lia).
  pose proof (bitlen_mono h (m / 2)). set (K := Z.to_nat ((Z.sqrt (m / 2) + 1) / 2)).
  eapply (spends_weak one_step (bitlen h + K) _ (fun _ => 0%nat)); [|lia|auto].
  apply (spends_bind one_step _ (fun x => bitlen x + K)%nat).
  - apply costs_frame. apply strip_cost; lia.
  - intros x Hx. assert (0 < x <= h) as Hx' by (eapply (strip_pos i32 2); [lia|lia|exact Hx]).
    assert (finv (Z.sqrt h) (3, x, 1%nat, divs)) as HI.
    { unfold finv. repeat split; try lia. apply Z.sqrt_le_mono. lia. }
    apply (spends_part_bind one_step (bitlen x + K) _ 0); [|lia|].
    + eapply spends_weak; [eapply (spends_loop one_step (finv (Z.sqrt h)) (fpot (Z.sqrt h)) (fun _ => 0%nat)); [apply factor_cost| |exact HI]| |auto].
      * intros s s' Hs E. apply (factor_next _ _ _ Hs) in E. exact E.
      * unfold fpot. assert (1 <= Z.sqrt h) as S1 by (change 1 with (Z.sqrt 1); apply Z.sqrt_le_mono; lia).
        assert (Z.sqrt h <= Z.sqrt (m / 2)) by (apply Z.sqrt_le_mono; lia).
        assert ((Z.sqrt h + 2 - 3) / 2 + 1 <= (Z.sqrt (m / 2) + 1) / 2).
        { rewrite <- Z.div_add by lia. apply Z.div_le_mono; lia. }
        assert (0 <= (Z.sqrt h + 2 - 3) / 2) by (apply Z.div_pos; lia). unfold K. lia.
    + intros [[x' cnt] divs'] _. destruct (1 <? x'); [clift|]; apply spends_ret; lia.
Qed.

Lemma prime_divs_few m divs cnt : 3 <= m -> prime_divs m = Ok (divs, cnt) -> (cnt <= 20)%nat.
Proof.
  intros Hm. unfold prime_divs. intros (divs0 & Ed & E)%rbind_ok_inv. assert (length divs0 = 20%nat) as HL by (vm_compute in Ed; injection Ed as <-; reflexivity).
  apply rbind_ok_inv in E as (m1 & [-> _]%chk_inv & E). apply rbind_ok_inv in E as (x & Ex & E). cbn [Z.eqb idiv] in Ex. apply chk_inv in Ex as [-> _].
  rewrite Z.quot_div_nonneg in E by lia. assert (1 <= (m - 1) / 2) by (apply Z.div_le_lower_bound; lia).
  apply rbind_ok_inv in E as (x & Hx & E). apply (strip_pos i32 2) in Hx; [|lia..].
  apply rbind_ok_inv in E as ([[x' cnt'] divs'] & E1 & E). apply (factor_loop_next (Z.sqrt x)) in E1; [|unfold finv; repeat split; lia]. destruct E1 as (_ & Hc & HL').
  destruct (1 <? x'); [|injection E as <- <-; exact Hc]. apply rbind_ok_inv in E as (d2 & Ed2 & [= <- <-]).
  unfold vset in Ed2. destruct (decide (cnt' < length divs')%nat); [lia|discriminate].
Qed.

Lemma root_test_cost m divs cnt g : 3 <= m -> in_ty i32 m -> Forall (fun d => 1 <= d) (take cnt divs) ->
  costs (cnt * (2 * bitlen m)) (fun _ => 0%nat) (root_testW m divs cnt g) (root_test m divs cnt g).
Proof.
  intros Hm Hi HF. rewrite i32_range in Hi. unfold root_testW, root_test. eapply (spends_for one_step _ (2 * bitlen m)); [|unfold range; rewrite seq_length; lia].
  intros j [] Hj; [|apply spends_ret; lia]. apply spends_lift_bind. intros q Eq. apply vget_ok_iff in Eq. unfold range in Hj. apply elem_of_seq in Hj.
  assert (1 <= q) as Hq by (apply (proj1 (Forall_lookup _ _) HF j); rewrite lookup_take by lia; exact Eq).
  apply spends_lift_bind. intros m1 [-> _]%chk_inv. apply spends_lift_bind. intros k Ek. unfold idiv in Ek. rewrite (proj2 (Z.eqb_neq q 0)) in Ek by lia. apply chk_inv in Ek as [-> _].
  rewrite Z.quot_div_nonneg by lia. set (k := (m - 1) / q). assert (0 <= k <= m) as Hk.
  { split; [apply Z.div_pos; lia|]. transitivity (m - 1); [|lia]. apply Z.div_le_upper_bound; nia. }
  apply (spends_part_bind one_step (2 * bitlen m) _ 0); [|lia|intros y _; apply spends_ret; lia].
  eapply spends_weak; [apply takes_costs, pow_mod_takes; [lia|rewrite i64_range; lia]| |auto].
  pose proof (bitlen_mono k m). pose proof (ones_le k). destruct (_ =? _); lia.
Qed.

Lemma ebind_ok {W A B} (m : eff W A) (f : A -> eff W B) w a w' : m w = Ok (a, w') -> ebind m f w = f a w'.
Proof. intros E. unfold ebind. rewrite E. reflexivity. Qed.

Lemma root_loop_cost m divs cnt : 3 <= m -> in_ty i32 m -> Forall (fun d => 1 <= d) (take cnt divs) -> forall fuel g r,
  rloop fuel (fun g => ok ← root_test m divs cnt g; if (ok : bool) then Ok (inr (wrap i32 g)) else g ← iadd i64 g 1; Ok (inl g)) g = Ok r ->
  exists g', r = wrap i32 g' /\ g <= g' < g + Z.of_nat fuel /\ forall w, exists k, (k <= Z.to_nat (g' - g + 1) * (cnt * (2 * bitlen m)))%nat /\
    eloop fuel (fun g => ok <* root_testW m divs cnt g ;* if (ok : bool) then eret (inr (wrap i32 g)) else g <* elift (iadd i64 g 1) ;* eret (inl g)) g w = Ok (r, (w + k)%nat).
Proof.
  intros Hm Hi HF. induction fuel as [|fuel IH]; intros g r; [discriminate|]. cbn [rloop eloop].
  pose proof (root_test_cost m divs cnt g Hm Hi HF) as C. set (C0 := (cnt * (2 * bitlen m))%nat) in *.
  destruct (root_test m divs cnt g) as [[]| |]; cbn [mbind res_bind]; [| |discriminate|discriminate].
  - intros [= <-]. exists g. split; [reflexivity|]. split; [lia|]. intros w. destruct (C w) as (w' & k & E & N & L). apply nsteps_one in N. subst w'.
    exists k. split; [nia|]. unfold ebind. rewrite E. reflexivity.
  - destruct (iadd i64 g 1) as [g1| |] eqn:Eg; cbn [mbind res_bind]; [|discriminate|discriminate]. unfold iadd in Eg. apply chk_inv in Eg as [-> Hg1].
    intros Er. destruct (IH _ _ Er) as (g' & Eg' & Hg' & HW). exists g'. split; [exact Eg'|]. split; [lia|]. intros w.
    destruct (C w) as (w' & k & E & N & L). apply nsteps_one in N. subst w'. destruct (HW (w + k)%nat) as (k2 & L2 & E2). exists (k + k2)%nat. split.
    + replace (Z.to_nat (g' - g + 1)) with (S (Z.to_nat (g' - (g + 1) + 1))) by lia. lia.
    + erewrite ebind_ok; [|erewrite ebind_ok; [|exact E]; cbv iota; erewrite ebind_ok; [reflexivity|reflexivity]]. cbv iota. rewrite E2. do 2 f_equal. lia.
Qed.

Lemma primitive_root_cost m : in_ty i32 m -> prime m -> exists g, primitive_root m = Ok g /\ 1 <= g < m /\ forall w, exists k,
  primitive_rootW m w = Ok (g, (w + k)%nat) /\
  (k <= bitlen (m / 2) + Z.to_nat ((Z.sqrt (m / 2) + 1) / 2) + Z.to_nat (g - 1) * (20 * (2 * bitlen m)))%nat.
Proof.
  intros Hi Hp. destruct (primitive_root_ok m Hp Hi) as (g & E & Hg & _). exists g. split; [exact E|]. split; [exact Hg|]. revert E.
  unfold primitive_root, primitive_rootW.
  do 5 (match goal with |- context [m =? ?c] => destruct (m =? c) eqn:? end; [intros [= <-] w; exists 0%nat; split; [unfold eret; do 2 f_equal; lia|lia]|]).
  assert (3 <= m) as Hm by (apply prime_ge_2 in Hp; apply Z.eqb_neq in Heqb; lia).
  destruct (prime_divs_ok m Hp ltac:(lia) Hi) as (divs & cnt & Ed & Hc & HF & _). rewrite Ed. cbn [mbind res_bind]. intros Er.
  pose proof (prime_divs_few m divs cnt Hm Ed) as Hc20.
  destruct (root_loop_cost m divs cnt Hm Hi) with (2 := Er) as (g' & -> & Hg' & HW).
  { eapply Forall_impl; [exact HF|]. cbn. lia. }
  intros w. pose proof (prime_divs_cost m Hm w) as Cd. rewrite Ed in Cd. destruct Cd as (w1 & k1 & E1 & N1 & L1). apply nsteps_one in N1. subst w1.
  destruct (HW (w + k1)%nat) as (k2 & L2 & E2). exists (k1 + k2)%nat. split.
  - erewrite ebind_ok; [|exact E1]. cbv iota. rewrite E2. do 2 f_equal. lia.
  - rewrite i32_range in Hi. assert (g' <= 2 ^ 31) as Hg2 by lia. assert (wrap i32 g' = g') as Ew.
    { destruct (decide (g' = 2 ^ 31)) as [->|]; [exfalso; vm_compute in Hg; destruct Hg as [Hg _]; apply Hg; reflexivity|]. apply wrap_i32. lia. }
    rewrite Ew. replace (g' - 2 + 1) with (g' - 1) in L2 by lia. nia.
Qed.
Close Scope Z_scope.
