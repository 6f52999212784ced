(** Soundness of the searches in PspInt.v. *)
From Coq Require Import Znumtheory Zpow_facts Uint63 List.
From stdpp Require Import prelude.
From Verif Require Import IMathSpec NumTheory PspMath PspInt.
Open Scope Z_scope.
Local Notation phi := to_Z.
Local Notation "x +i y" := (PrimInt63.add x y) (at level 50, left associativity).
Local Notation "x *i y" := (PrimInt63.mul x y) (at level 40, left associativity).
Local Notation "x /i y" := (PrimInt63.div x y) (at level 40, left associativity).
Local Notation "x %i y" := (PrimInt63.mod x y) (at level 40, left associativity).

(* compare calls of these by their arguments first *)
Strategy 100 [stl powm minimal cancel loop find_factor].

(** ** Machine integers *)
Lemma wB_val : wB = 9223372036854775808. Proof. reflexivity. Qed.
Lemma pb x : 0 <= phi x < 9223372036854775808. Proof. exact (to_Z_bounded x). Qed.
Lemma p_add x y : phi x + phi y < 9223372036854775808 -> phi (x +i y) = phi x + phi y.
Proof. intros H. rewrite add_spec. apply Z.mod_small. pose proof (pb x). pose proof (pb y). rewrite wB_val. lia. Qed.
Lemma p_sub x y : phi y <= phi x -> phi (PrimInt63.sub x y) = phi x - phi y.
Proof. intros H. rewrite sub_spec. apply Z.mod_small. pose proof (pb x). pose proof (pb y). rewrite wB_val. lia. Qed.
Lemma p_mul x y : phi x * phi y < 9223372036854775808 -> phi (x *i y) = phi x * phi y.
Proof. intros H. rewrite mul_spec. apply Z.mod_small. pose proof (pb x). pose proof (pb y). rewrite wB_val. nia. Qed.
Lemma p_ltb x y : PrimInt63.ltb x y = (phi x <? phi y).
Proof. apply eq_true_iff_eq. rewrite ltb_spec, Z.ltb_lt. reflexivity. Qed.
Lemma p_leb x y : PrimInt63.leb x y = (phi x <=? phi y).
Proof. apply eq_true_iff_eq. rewrite leb_spec, Z.leb_le. reflexivity. Qed.
Lemma p_eqb x y : PrimInt63.eqb x y = (phi x =? phi y).
Proof. apply eq_true_iff_eq. rewrite Uint63.eqb_spec, Z.eqb_eq. split; [intros ->; reflexivity|apply to_Z_inj]. Qed.
Lemma p_of z : 0 <= z < 9223372036854775808 -> phi (of_Z z) = z.
Proof. intros H. rewrite of_Z_spec. apply Z.mod_small. rewrite wB_val. exact H. Qed.
Lemma p_N31 : phi N31 = 2 ^ 31. Proof. reflexivity. Qed.
Lemma p_Sq : phi Sq = 46341. Proof. reflexivity. Qed.

(** ** Powers and the strong test *)
Lemma powm_spec f : forall n a e acc, 0 < phi n <= 2 ^ 31 -> phi a < 2 ^ 31 -> phi acc < phi n -> phi e < 2 ^ Z.of_nat f ->
  phi (powm f n a e acc) = (phi acc * phi a ^ phi e) mod phi n.
Proof.
  induction f as [|f IH]; intros n a e acc Hn Ha Hacc He.
  - cbn [powm]. pose proof (pb e). pose proof (pb acc). replace (phi e) with 0 by (change (2 ^ Z.of_nat 0) with 1 in He; lia).
    rewrite Z.pow_0_r, Z.mul_1_r, Z.mod_small by lia. reflexivity.
  - cbn [powm]. rewrite p_eqb. change (phi 0%uint63) with 0. pose proof (pb e). pose proof (pb acc). pose proof (pb a).
    destruct (Z.eqb_spec (phi e) 0) as [E|E].
    { rewrite E, Z.pow_0_r, Z.mul_1_r, Z.mod_small by lia. reflexivity. }
    rewrite p_eqb, mod_spec. change (phi 2%uint63) with 2. change (phi 0%uint63) with 0.
    assert (H2 : phi (e /i 2%uint63) = phi e / 2) by (rewrite div_spec; reflexivity).
    assert (Hsq : phi (a *i a %i n) = phi a * phi a mod phi n) by (rewrite mod_spec, p_mul by nia; reflexivity).
    pose proof (Z.mod_pos_bound (phi a * phi a) (phi n) ltac:(lia)).
    pose proof (Z.div_mod (phi e) 2 ltac:(lia)) as Hdm. pose proof (Z.mod_pos_bound (phi e) 2 ltac:(lia)).
    assert (0 <= phi e / 2) by (apply Z.div_pos; lia).
    assert (phi e / 2 < 2 ^ Z.of_nat f).
    { apply Z.div_lt_upper_bound; [lia|]. rewrite <- Z.pow_succ_r, <- Nat2Z.inj_succ by lia. exact He. }
    assert (Hp : forall x, (x * (phi a * phi a mod phi n) ^ (phi e / 2)) mod phi n = (x * (phi a * phi a) ^ (phi e / 2)) mod phi n).
    { intros x. rewrite <- (Z.mul_mod_idemp_r x), Zpower_mod, Z.mod_mod, <- Zpower_mod, Z.mul_mod_idemp_r by lia. reflexivity. }
    destruct (Z.eqb_spec (phi e mod 2) 0) as [Ev|Ev].
    + rewrite IH; [|lia|lia|lia|lia]. rewrite H2, Hsq, Hp.
      rewrite Hdm at 2. rewrite Ev, Z.add_0_r, Z.pow_mul_r by lia. rewrite Z.pow_2_r. reflexivity.
    + assert (Hm : phi (acc *i a %i n) = phi acc * phi a mod phi n) by (rewrite mod_spec, p_mul by nia; reflexivity).
      pose proof (Z.mod_pos_bound (phi acc * phi a) (phi n) ltac:(lia)).
      rewrite IH; [|lia|lia|lia|lia]. rewrite H2, Hsq, Hp, Hm.
      rewrite Z.mul_mod_idemp_l by lia. f_equal.
      rewrite Hdm at 2. replace (phi e mod 2) with 1 by lia. rewrite Z.pow_add_r, Z.pow_mul_r, Z.pow_1_r, Z.pow_2_r by lia. ring.
Qed.

Lemma pw_spec n a e : 1 < phi n <= 2 ^ 31 -> phi a < 2 ^ 31 -> phi e < 2 ^ 32 -> phi (pw n a e) = phi a ^ phi e mod phi n.
Proof.
  intros Hn Ha He. unfold pw. rewrite powm_spec; [|lia|exact Ha|change (phi 1%uint63) with 1; lia|exact He].
  change (phi 1%uint63) with 1. rewrite Z.mul_1_l. reflexivity.
Qed.

Lemma stl_sound f : forall n a e, 1 < phi n <= 2 ^ 31 -> phi a < 2 ^ 31 -> phi e < 2 ^ 32 ->
  stl f n a e = false -> ~ upto (phi n) (phi a) (phi e).
Proof.
  induction f as [|f IH]; intros n a e Hn Ha He; [discriminate|]. cbn [stl]. rewrite !p_eqb, pw_spec by assumption.
  rewrite p_sub by (change (phi 1%uint63) with 1; lia). rewrite mod_spec.
  change (phi 1%uint63) with 1. change (phi 2%uint63) with 2. change (phi 0%uint63) with 0.
  pose proof (pb e). destruct (Z.eqb_spec (phi a ^ phi e mod phi n) (phi n - 1)) as [|H1]; [discriminate|].
  assert (A1 : ~ (phi n | phi a ^ phi e + 1)).
  { intros Hd. apply H1. apply pow_mod_eq_iff; [lia..|]. replace (phi a ^ phi e - (phi n - 1)) with (phi a ^ phi e + 1 - phi n) by ring.
    apply Z.divide_sub_r; [exact Hd|apply Z.divide_refl]. }
  destruct (Z.eqb_spec (phi a ^ phi e mod phi n) 1) as [H2|H2].
  - destruct (Z.eqb_spec (phi e mod 2) 0) as [H3|]; [|discriminate]. intros Hs U.
    assert (Eh : phi (e /i 2%uint63) = phi e / 2) by (rewrite div_spec; reflexivity).
    destruct (upto_step _ _ _ U) as [Hm|[_ [Ho|U']]]; [exact (A1 Hm)| |].
    + rewrite Zodd_mod in Ho. apply Zeq_bool_eq in Ho. lia.
    + rewrite <- Eh in U'. revert U'. apply IH; try assumption.
      rewrite Eh. apply Z.div_lt_upper_bound; lia.
  - intros _ U. destruct (upto_step _ _ _ U) as [Hm|[Hm _]]; [exact (A1 Hm)|].
    apply H2. apply pow_mod_eq_iff; [lia..|exact Hm].
Qed.

Lemma stl3_sound n e : phi e = (phi n - 1) / 2 -> (stl 32 n 2 e && (stl 32 n 7 e && stl 32 n 61 e)) = false -> ~ good (phi n).
Proof.
  intros E H (Hn & Ho & S2 & S7 & S61).
  assert (phi e < 2 ^ 32) by (rewrite E; apply Z.div_lt_upper_bound; lia).
  assert (G : forall a z, phi a = z -> z < 2 ^ 31 -> sprp (phi n) z -> stl 32 n a e = true).
  { intros a z <- Ha Hs. destruct (stl 32 n a e) eqn:F; [reflexivity|]. exfalso.
    apply (stl_sound 32 n a e); [lia|exact Ha|assumption|exact F|]. rewrite E. apply sprp_upto; [lia|assumption..]. }
  pose proof (G 2%uint63 2 eq_refl eq_refl S2) as G2. pose proof (G 7%uint63 7 eq_refl eq_refl S7) as G7.
  pose proof (G 61%uint63 61 eq_refl eq_refl S61) as G61. clear -H G2 G7 G61.
  revert H G2 G7 G61. generalize (stl 32 n 2 e) (stl 32 n 7 e) (stl 32 n 61 e). intros b1 b2 b3 H -> -> ->. discriminate H.
Qed.
Lemma strong3_sound n : strong3 n = false -> ~ good (phi n).
Proof.
  intros H G. assert (Hn : 1 < phi n < 2 ^ 31) by (destruct G; assumption).
  revert H. unfold strong3. cbv zeta. intros H. revert G. eapply stl3_sound; [|exact H].
  rewrite div_spec, p_sub by (change (phi 1%uint63) with 1; lia). reflexivity.
Qed.

(** ** Enumeration *)
Lemma loop_inv {A R} (I : A -> Prop) (Q : R -> Prop) (f : A -> A + R) k :
  (forall a, I a -> match f a with inl a => I a | inr r => Q r end) ->
  forall a, I a -> match loop k f a with inl a => I a | inr r => Q r end.
Proof.
  intros Hf. induction k as [|k IH]; intros a Ha; [apply Hf, Ha|]. cbn [loop].
  pose proof (IH a Ha) as H. destruct (loop k f a) as [a'|r]; [apply IH, H|exact H].
Qed.

Lemma enum_sound t c s hi : enum t c s hi = true -> 0 < phi s -> phi hi + phi s < 2 ^ 62 ->
  forall z, phi c <= z <= phi hi -> (phi s | z - phi c) -> exists x, phi x = z /\ t x = true.
Proof.
  intros H Hs Hhi. set (Q := forall z, phi c <= z <= phi hi -> (phi s | z - phi c) -> exists x, phi x = z /\ t x = true).
  unfold enum in H.
  pose proof (loop_inv
    (fun x => phi c <= phi x /\ (phi s | phi x - phi c) /\ (forall z, phi c <= z < phi x -> (phi s | z - phi c) -> exists x, phi x = z /\ t x = true))
    (fun b : bool => b = true -> Q)
    (fun c => if PrimInt63.ltb hi c then inr true else if t c then inl (c +i s) else inr false) 22) as L.
  cbv beta in L. match type of L with ?A -> _ => assert A as HA end; [clear L H|specialize (L HA c)].
  { intros x (Hx1 & Hx2 & Hx3). rewrite p_ltb. destruct (Z.ltb_spec (phi hi) (phi x)) as [Hlt|Hge].
    - intros _ z Hz Hd. apply Hx3; [lia|exact Hd].
    - destruct (t x) eqn:Et; [|discriminate]. rewrite p_add by lia.
      split; [lia|]. split.
      { replace (phi x + phi s - phi c) with (phi x - phi c + phi s) by ring. apply Z.divide_add_r; [exact Hx2|apply Z.divide_refl]. }
      intros z Hz Hd. destruct (Z_lt_le_dec z (phi x)); [apply Hx3; [lia|exact Hd]|].
      exists x. split; [|exact Et]. assert (phi s | z - phi x) as [k Hk].
      { replace (z - phi x) with ((z - phi c) - (phi x - phi c)) by ring. apply Z.divide_sub_r; assumption. }
      assert (k = 0) by nia. nia. }
  match type of L with ?A -> _ => assert A as HB end; [clear L|specialize (L HB)].
  { split; [lia|]. split; [exists 0; lia|]. intros z Hz. lia. }
  destruct (loop 22 _ c) as [?|b]; [discriminate|]. exact (L H).
Qed.

(** ** Orders *)
Lemma composite_sound q : composite q = true -> ~ prime (phi q).
Proof.
  unfold composite. rewrite !andb_true_iff, !p_ltb, p_eqb, mod_spec, !Z.ltb_lt, Z.eqb_eq.
  change (phi 1%uint63) with 1. change (phi 0%uint63) with 0. intros (H1 & H2 & H3) Hp.
  apply prime_alt in Hp as [_ Hp]. apply (Hp (phi (find_factor 110 q 3))); [lia|]. apply Z.mod_divide; [lia|exact H3].
Qed.

Lemma e3_spec q m : 1 < phi q <= 2 ^ 31 -> phi m < 2 ^ 32 -> e3 q m = true <-> E3 (phi q) (phi m).
Proof.
  intros Hq Hm. unfold e3, E3. rewrite !andb_true_iff, !p_eqb, !Z.eqb_eq. pose proof (pb m).
  rewrite !pw_spec by (assumption || reflexivity).
  change (phi 1%uint63) with 1. change (phi 2%uint63) with 2. change (phi 7%uint63) with 7. change (phi 61%uint63) with 61.
  rewrite !pow_mod_eq_iff by lia. reflexivity.
Qed.

Lemma minimal_sound f : forall q h r m, 1 < phi q <= 2 ^ 31 -> 0 < phi h < 2 ^ 31 -> 0 < phi m < 2 ^ 31 ->
  2 <= phi r -> phi r + Z.of_nat f <= 1000 -> (forall s, prime s -> (s | phi m) -> phi r <= s) ->
  minimal f q h r m = true -> forall s, prime s -> (s | phi m) -> ~ E3 (phi q) (phi h / s).
Proof.
  induction f as [|f IH]; intros q h r m Hq Hh Hm Hr Hf Hmin H s Ps Ds; [discriminate|]. cbn [minimal] in H.
  rewrite p_ltb, p_mul in H by nia. pose proof (prime_ge_2 s Ps).
  assert (Q : forall x, 1 <= phi x -> phi (h /i x) = phi h / phi x /\ phi (h /i x) < 2 ^ 32).
  { intros x Hx. rewrite div_spec. split; [reflexivity|]. apply Z.div_lt_upper_bound; nia. }
  destruct (Z.ltb_spec (phi m) (phi r * phi r)) as [Hlt|Hge].
  - rewrite p_ltb in H. change (phi 1%uint63) with 1 in H.
    assert (s <= phi m) by (apply Z.divide_pos_le; [lia|exact Ds]).
    destruct (Z.ltb_spec 1 (phi m)) as [_|]; [|lia]. apply negb_true_iff in H.
    assert (s = phi m) as ->.
    { destruct Ds as [t Ht]. destruct (Z.eq_dec t 1) as [->|]; [lia|]. exfalso.
      destruct (exists_prime_divisor t ltac:(nia)) as (u & Pu & Du). pose proof (prime_ge_2 u Pu).
      assert (phi r <= u) by (apply Hmin; [exact Pu|rewrite Ht; apply Z.divide_mul_l, Du]).
      assert (phi r <= s) by (apply Hmin; [exact Ps|exists t; exact Ht]).
      assert (u <= t) by (apply Z.divide_pos_le; [nia|exact Du]). nia. }
    destruct (Q m ltac:(lia)) as [Q1 Q2]. rewrite <- Q1. rewrite <- e3_spec by assumption. congruence.
  - rewrite p_eqb, mod_spec in H. change (phi 0%uint63) with 0 in H.
    destruct (Z.eqb_spec (phi m mod phi r) 0) as [Hd|Hd].
    + apply andb_true_iff in H as [H1 H2]. apply negb_true_iff in H1. destruct (Q r ltac:(lia)) as [Q1 Q2].
      apply Z.mod_divide in Hd as [k Hk]; [|lia].
      assert (Ek : phi (m /i r) = k) by (rewrite div_spec, Hk; apply Z.div_mul; lia).
      assert (0 < k) by nia.
      rewrite Hk in Ds. apply prime_mult in Ds as [Ds|Ds]; [| |exact Ps].
      * apply (IH q h r (m /i r)); try assumption; rewrite ?Ek; [nia|lia| |exact Ds].
        intros u Pu Du. apply Hmin; [exact Pu|]. rewrite Hk. apply Z.divide_mul_l, Du.
      * assert (s <= phi r) by (apply Z.divide_pos_le; [lia|exact Ds]).
        assert (phi r <= s) by (apply Hmin; [exact Ps|rewrite Hk; apply Z.divide_mul_r, Ds]).
        assert (s = phi r) as -> by lia. rewrite <- Q1. rewrite <- e3_spec by assumption. congruence.
    + assert (Er : phi (r +i 1%uint63) = phi r + 1) by (rewrite p_add; change (phi 1%uint63) with 1; lia).
      apply (IH q h (r +i 1%uint63) m); try assumption; [lia|lia|].
      intros u Pu Du. assert (phi r <= u) by (apply Hmin; assumption). destruct (Z.eq_dec u (phi r)) as [->|]; [|lia].
      exfalso. apply Hd. apply Z.mod_divide; [lia|exact Du].
Qed.

Lemma okh_sound q h : okh q h = true -> prime (phi q) -> coprime3 (phi q) -> phi q <= 2 ^ 31 ->
  0 < phi h < phi q /\ forall m, 0 <= m -> E3 (phi q) m -> (phi h | m).
Proof.
  unfold okh. rewrite !andb_true_iff, !p_ltb, !Z.ltb_lt. change (phi 0%uint63) with 0.
  intros (H1 & H2 & H3 & H4) Hp Hc Hq. pose proof (prime_ge_2 _ Hp). split; [lia|]. apply E3_min; try assumption.
  - apply e3_spec; [lia|lia|exact H3].
  - intros r Pr Dr. apply (minimal_sound 300 q h 2%uint63 h); try assumption; [lia|lia|lia|reflexivity|change (phi 2%uint63) with 2; lia|].
    intros s Ps _. change (phi 2%uint63) with 2. apply prime_ge_2, Ps.
Qed.

(** ** Case 1 *)
Lemma case1_q_sound q n : case1_q q = true -> phi q < 2 ^ 31 -> prime (phi q) -> good n -> (phi q | n) -> n = phi q.
Proof.
  intros H Hq Hp G Hd. unfold case1_q in H. apply orb_true_iff in H as [H|H]; [exfalso; apply (composite_sound q); assumption|].
  apply andb_true_iff in H as [H1 H2]. pose proof (good_coprime3 n _ G Hp Hd) as C.
  destruct (okh_sound q (hq q) H1 Hp C ltac:(lia)) as [Hh Hmin]. set (h := hq q) in *. pose proof (prime_ge_2 _ Hp).
  destruct Hd as [c Hc]. destruct (Z.eq_dec c 1) as [->|Hc1]; [lia|]. exfalso.
  assert (Hn : 1 < n < 2 ^ 31) by (destruct G; assumption). assert (1 < c) by nia.
  assert (phi h | n - 1) as D1 by (apply Hmin; [lia|]; apply good_E3; [exact G|exists c; exact Hc]).
  assert (phi h | phi q - 1) as D2 by (apply Hmin; [lia|]; apply E3_fermat; assumption).
  assert (phi h | c - 1) as D3.
  { replace (c - 1) with ((n - 1) - (phi q - 1) * c) by (rewrite Hc; ring). apply Z.divide_sub_r; [exact D1|]. apply Z.divide_mul_l, D2. }
  assert (E1 : phi (1%uint63 +i h) = 1 + phi h) by (rewrite p_add; change (phi 1%uint63) with 1; lia).
  destruct (enum_sound _ _ _ _ H2) with (z := c) as (x & Ex & Tx).
  - lia.
  - rewrite div_spec, p_N31. assert (2 ^ 31 / phi q <= 2 ^ 31) by (apply Z.div_le_upper_bound; lia). lia.
  - rewrite E1, div_spec, p_N31. split; [apply Z.divide_pos_le in D3; lia|]. apply Z.div_le_lower_bound; lia.
  - rewrite E1. replace (c - (1 + phi h)) with (c - 1 - phi h) by ring. apply Z.divide_sub_r; [exact D3|apply Z.divide_refl].
  - apply negb_true_iff in Tx. apply strong3_sound in Tx. apply Tx. rewrite p_mul, Ex by (rewrite Ex; nia).
    replace (phi q * c) with n by lia. exact G.
Qed.

Lemma prime_odd q : prime q -> 2 < q -> Z.odd q = true.
Proof.
  intros Hp H2. destruct (Z.odd q) eqn:E; [reflexivity|]. exfalso. apply prime_alt in Hp as [_ Hp]. apply (Hp 2); [lia|].
  assert (Z.even q = true) as Ev by (rewrite <- Z.negb_odd, E; reflexivity). apply Z.even_spec in Ev as [k Hk]. exists k. lia.
Qed.
Lemma odd_diff a b : Z.odd a = true -> Z.odd b = true -> (2 | a - b).
Proof. intros [x Hx]%Z.odd_spec [y Hy]%Z.odd_spec. exists (x - y). lia. Qed.

Lemma case1_sound : case1 = true -> forall q n, prime q -> 2048 < q <= 46341 -> good n -> (q | n) -> n = q.
Proof.
  intros H q n Hp Hq G Hd. unfold case1 in H.
  destruct (enum_sound _ _ _ _ H) with (z := q) as (x & Ex & Tx).
  - reflexivity.
  - reflexivity.
  - change (phi (Bd +i 1%uint63)) with 2049. rewrite p_Sq. lia.
  - apply odd_diff; [apply prime_odd; [exact Hp|lia]|reflexivity].
  - subst q. apply case1_q_sound; try assumption. lia.
Qed.

(** ** Small primes *)
Lemma nosq_sound q n : nosq q = true -> prime (phi q) -> phi q < 2048 -> good n -> ~ (phi q * phi q | n).
Proof.
  intros H Hp Hq G Hd. pose proof (prime_ge_2 _ Hp). destruct (good_fermat n G) as (F2 & F7 & _).
  assert (Hn : 1 < n < 2 ^ 31) by (destruct G; assumption).
  assert (E : forall a, phi a < 2 ^ 31 -> (n | phi a ^ (n - 1) - 1) -> (PrimInt63.eqb (pw (q *i q) a (PrimInt63.sub q 1)) 1) = true).
  { intros a Ha F. rewrite p_eqb, pw_spec; [|rewrite p_mul by nia; nia|exact Ha|rewrite p_sub; change (phi 1%uint63) with 1; lia].
    rewrite p_mul, p_sub by (change (phi 1%uint63) with 1; nia). change (phi 1%uint63) with 1. apply Z.eqb_eq.
    apply pow_mod_eq_iff; [nia|lia|nia|]. apply (square_factor (phi q) n); try assumption. lia. }
  unfold nosq in H. rewrite (E 2%uint63 eq_refl F2), (E 7%uint63 eq_refl F7) in H. discriminate H.
Qed.

Definition okp (qh : int * int) : Prop := phi qh.1 < 2048 /\ okh qh.1 qh.2 = true /\ nosq qh.1 = true.

Lemma small_ok_sound : small_ok = true -> Forall okp small /\
  forall q, prime q -> coprime3 q -> q <= 2048 -> exists qh, qh ∈ small /\ phi qh.1 = q.
Proof.
  unfold small_ok. intros [H1 H2]%andb_true_iff. split.
  - apply Forall_forall. intros [q h] Hin. rewrite forallb_forall in H1. apply elem_of_list_In in Hin. apply H1 in Hin.
    unfold ok_small in Hin. rewrite !andb_true_iff, !p_ltb, !Z.ltb_lt in Hin. destruct Hin as (_ & A & B & C).
    split; [exact A|]. split; assumption.
  - intros q Hp (C2 & C7 & C61) Hq. pose proof (prime_ge_2 _ Hp).
    assert (q <> 2) by (intros ->; apply C2, Z.divide_refl).
    destruct (enum_sound _ _ _ _ H2) with (z := q) as (x & Ex & Tx).
    + reflexivity.
    + reflexivity.
    + change (phi 3%uint63) with 3. change (phi Bd) with 2048. lia.
    + apply odd_diff; [apply prime_odd; [exact Hp|lia]|reflexivity].
    + subst q. rewrite !orb_true_iff, !p_eqb, !Z.eqb_eq in Tx. change (phi 7%uint63) with 7 in Tx. change (phi 61%uint63) with 61 in Tx.
      destruct Tx as [T|[T|[T|T]]].
      * exfalso. apply (composite_sound x); assumption.
      * exfalso. apply C7. rewrite T. apply Z.divide_refl.
      * exfalso. apply C61. rewrite T. apply Z.divide_refl.
      * unfold is_small in T. apply existsb_exists in T as (qh & Hin & E). exists qh. split; [apply elem_of_list_In, Hin|].
        rewrite p_eqb in E. apply Z.eqb_eq in E. exact E.
Qed.

(** ** Case 2 *)
Lemma cofactors_sound t d L lo c : cofactors t d L lo = true -> 0 < phi d < 2 ^ 32 -> phi lo < 2 ^ 31 ->
  phi lo <= c -> phi d * c < 2 ^ 31 -> (phi L | phi d * c - 1) -> exists x, phi x = c /\ t x = true.
Proof.
  unfold cofactors. intros H Hd Hlo Hc Hdc HL. rewrite !andb_true_iff, !p_ltb, p_N31 in H.
  revert H. generalize (start d L lo). intros c0 H. destruct H as (L1 & L2 & L3 & L4 & L5). apply Z.ltb_lt in L1, L2, L3. change (phi 0%uint63) with 0 in *.
  rewrite p_add in L3 by lia. rewrite p_eqb in L4. apply Z.eqb_eq in L4. change (phi 1%uint63) with 1 in L4.
  pose proof (Z.mod_pos_bound (phi c0) (phi L) L1). pose proof (Z.mod_pos_bound (phi d) (phi L) L1).
  rewrite mod_spec, p_mul, !mod_spec in L4 by (rewrite !mod_spec; nia).
  rewrite <- Z.mul_mod in L4 by lia.
  assert (phi L | phi c0 * phi d - 1) as D0.
  { exists (phi c0 * phi d / phi L). pose proof (Z.div_mod (phi c0 * phi d) (phi L) ltac:(lia)). lia. }
  assert (phi L | c - phi c0) as D1.
  { apply Gauss with (phi d).
    - replace (phi d * (c - phi c0)) with ((phi d * c - 1) - (phi c0 * phi d - 1)) by ring. apply Z.divide_sub_r; assumption.
    - destruct D0 as [k Hk]. apply bezout_rel_prime. apply Bezout_intro with (- k) (phi c0). lia. }
  pose proof (pb lo).
  apply (enum_sound _ _ _ _ L5); [exact L1| | |exact D1].
  - rewrite div_spec, p_N31. assert (2 ^ 31 / phi d <= 2 ^ 31) by (apply Z.div_le_upper_bound; nia). lia.
  - rewrite div_spec, p_N31. split; [destruct D1 as [k Hk]; assert (0 <= k) by nia; nia|]. apply Z.div_le_lower_bound; lia.
Qed.

Lemma reject_sound d p : reject d p = true -> prime (phi p) -> 46341 <= phi p -> 0 < phi d -> phi d * phi p < 2 ^ 31 -> ~ good (phi d * phi p).
Proof.
  intros H Hp Hp0 Hd Hn G. unfold reject in H.
  assert (ND : forall r, 1 < phi r < 100 -> PrimInt63.eqb (p %i r) 0 = false).
  { intros r Hr. rewrite p_eqb, mod_spec. change (phi 0%uint63) with 0. apply Z.eqb_neq. intros E.
    apply prime_alt in Hp as [_ Hp]. apply (Hp (phi r)); [lia|]. apply Z.mod_divide; [lia|exact E]. }
  assert (PrimInt63.eqb (pw p 2 (PrimInt63.sub d 1)) 1 = true) as E.
  { rewrite p_eqb. assert (phi (PrimInt63.sub d 1) = phi d - 1) as Es by (rewrite p_sub; change (phi 1%uint63) with 1; lia).
    rewrite pw_spec by (rewrite ?Es; reflexivity || nia). rewrite Es. change (phi 1%uint63) with 1. change (phi 2%uint63) with 2. apply Z.eqb_eq.
    apply pow_mod_eq_iff; [lia..|]. apply (good_cofactor (phi d) (phi p)); [lia|exact G|exact Hp]. }
  rewrite !orb_true_iff, !negb_true_iff in H. destruct H as [H|[H|[H|[H|[H|[H|H]]]]]].
  1-5: rewrite ND in H by (split; reflexivity); discriminate H.
  - rewrite H in E. discriminate E.
  - apply strong3_sound in H. apply H. rewrite p_mul by lia. exact G.
Qed.

(** All prime factors at least 46341: a number below 2^31 is 1 or prime. *)
Lemma big_factors m : 0 < m < 2 ^ 31 -> (forall p, prime p -> (p | m) -> 46341 <= p) -> m = 1 \/ prime m.
Proof.
  intros Hm H. destruct (Z.eq_dec m 1) as [|H1]; [left; assumption|right].
  destruct (exists_prime_divisor m ltac:(lia)) as (p & Pp & [c Hc]). pose proof (prime_ge_2 p Pp).
  destruct (Z.eq_dec c 1) as [->|]; [replace m with p by lia; exact Pp|].
  exfalso. destruct (exists_prime_divisor c ltac:(nia)) as (r & Pr & [e He]). pose proof (prime_ge_2 r Pr).
  assert (46341 <= p) by (apply H; [exact Pp|exists c; exact Hc]).
  assert (46341 <= r) by (apply H; [exact Pr|exists (e * p); rewrite Hc, He; ring]).
  assert (1 <= e) by nia. assert (r <= c) by nia. nia.
Qed.

Lemma hit_dec1 (q m : Z) : (prime q /\ (q | m)) \/ ~ (prime q /\ (q | m)).
Proof. destruct (prime_dec q); [destruct (Zdivide_dec q m)|]; [left; auto|right; tauto..]. Qed.
Lemma hit_dec (ps : list (int * int)) m :
  (exists qh, qh ∈ ps /\ prime (phi qh.1) /\ (phi qh.1 | m)) \/ ~ (exists qh, qh ∈ ps /\ prime (phi qh.1) /\ (phi qh.1 | m)).
Proof.
  induction ps as [|x ps IH]; [right; intros (qh & H & _); apply elem_of_nil in H; exact H|].
  destruct (hit_dec1 (phi x.1) m) as [H|H]; [left; exists x; split; [left|exact H]|].
  destruct IH as [(y & Hy & H')|IH]; [left; exists y; split; [right; exact Hy|exact H']|].
  right. intros (y & Hy & H'). apply elem_of_cons in Hy as [->|Hy]; [exact (H H')|]. apply IH. exists y. auto.
Qed.

Section Dfs.
  Context (cert : int -> bool).
  Context (Hcert : forall d p, cert d = true -> phi d < 1024 -> prime p -> 46341 <= p -> ~ good (phi d * p)).

  Lemma node_sound b d L n : node cert b d L = true -> 0 < phi d < 2 ^ 32 -> good n -> ~ prime n ->
    (b = true -> prime (phi d)) ->
    (phi d | n) -> (phi L | n - 1) -> (forall p, prime p -> (p | n / phi d) -> 46341 <= p) -> False.
  Proof.
    unfold node. intros [H1 H2]%andb_true_iff Hd G Hnp Hb Hdn HL Hbig.
    assert (Hn : 1 < n < 2 ^ 31) by (destruct G; assumption).
    destruct Hdn as [c Hc]. assert (Ec : n / phi d = c) by (rewrite Hc; apply Z.div_mul; lia). rewrite Ec in Hbig.
    assert (0 < c) by nia.
    destruct (big_factors c) as [->|Pc]; [nia|exact Hbig| |].
    - replace n with (phi d) in * by lia. destruct b; [apply Hnp, Hb; reflexivity|]. cbn [orb] in H1.
      apply negb_true_iff in H1. apply strong3_sound in H1. exact (H1 G).
    - assert (46341 <= c) by (apply Hbig; [exact Pc|apply Z.divide_refl]).
      replace n with (phi d * c) in * by lia. rewrite p_ltb in H2. change (phi Md) with 1024 in H2.
      destruct (Z.ltb_spec (phi d) 1024); [apply (Hcert d c); assumption|].
      destruct (cofactors_sound _ d L Sq c H2) as (x & Ex & Tx); [exact Hd|rewrite p_Sq; lia|rewrite p_Sq; lia|lia|exact HL|].
      subst c. revert G. apply reject_sound; try assumption; lia.
  Qed.

  Lemma go_sound ps : Forall okp ps -> forall d L n, go cert d L ps = true -> 0 < phi d -> 0 < phi L ->
    good n -> ~ prime n -> (phi d | n) -> (phi L | n - 1) ->
    (forall p, prime p -> (p | n / phi d) -> 46341 <= p \/ exists qh, qh ∈ ps /\ phi qh.1 = p) ->
    ~ exists qh, qh ∈ ps /\ prime (phi qh.1) /\ (phi qh.1 | n / phi d).
  Proof.
    intros Hok. induction Hok as [|[q h] ps Hq Hok IH]; intros d L n H Hd HL G Hnp Ddn DL Hall (qh & Hin & Hp & Hdv).
    { apply elem_of_nil in Hin. exact Hin. }
    destruct Hq as (Hq & Hh & Hsq). cbn [fst snd] in Hq, Hh, Hsq. cbn [go] in H. apply andb_true_iff in H as [H1 H2].
    assert (Hn : 1 < n < 2 ^ 31) by (destruct G; assumption).
    assert (Hdle : phi d <= n) by (apply Z.divide_pos_le; [lia|exact Ddn]).
    assert (HLle : phi L <= n - 1) by (apply Z.divide_pos_le; [lia|exact DL]).
    destruct (hit_dec1 (phi q) (n / phi d)) as [[Pq Dq]|Hnq].
    2:{ apply (IH d L n H2 Hd HL G Hnp Ddn DL).
        - intros p Pp Dp. destruct (Hall p Pp Dp) as [|(x & Hx & Ex)]; [left; assumption|right].
          apply elem_of_cons in Hx as [->|Hx]; [|exists x; auto]. exfalso. apply Hnq. cbn [fst] in Ex. subst p. auto.
        - apply elem_of_cons in Hin as [->|Hin]; [exfalso; apply Hnq; cbn [fst] in *; auto|]. exists qh. auto. }
    clear qh Hin Hp Hdv H2. pose proof (prime_ge_2 _ Pq).
    destruct Ddn as [c Hc]. assert (Ec : n / phi d = c) by (rewrite Hc; apply Z.div_mul; lia). rewrite Ec in *.
    destruct Dq as [e He].
    assert (Dqn : (phi q | n)) by (exists (e * phi d); rewrite Hc, He; ring).
    pose proof (good_coprime3 n _ G Pq Dqn) as C.
    destruct (okh_sound q h Hh Pq C ltac:(lia)) as [Hhb Hmin].
    assert (Dh : (phi h | n - 1)) by (apply Hmin; [lia|]; apply good_E3; assumption).
    set (d' := d *i q) in *. assert (Ed : phi d' = phi d * phi q) by (unfold d'; apply p_mul; nia).
    cbv zeta in H1. rewrite p_ltb, p_N31 in H1.
    assert (0 < c) by nia. assert (0 < e) by nia. assert (En : n = e * phi d') by (rewrite Ed, Hc, He; ring).
    assert (phi d' <= n) by nia.
    destruct (Z.ltb_spec (2 ^ 31) (phi d')); [lia|].
    assert (Eg : phi (Uint63.gcd L h) = Z.gcd (phi L) (phi h)).
    { pose proof (pb (Uint63.gcd L h)). pose proof (Z.gcd_nonneg (phi L) (phi h)).
      destruct (Zis_gcd_unique (phi L) (phi h) _ _ (Uint63.gcd_spec L h) (Zgcd_is_gcd (phi L) (phi h))); lia. }
    set (L' := L /i Uint63.gcd L h *i h) in *.
    assert (0 < Z.gcd (phi L) (phi h)).
    { pose proof (Z.gcd_nonneg (phi L) (phi h)). destruct (Z.eq_dec (Z.gcd (phi L) (phi h)) 0) as [E0|]; [|lia]. apply Z.gcd_eq_0_l in E0. lia. }
    assert (EL0 : phi L / Z.gcd (phi L) (phi h) <= phi L) by (apply Z.div_le_upper_bound; nia).
    assert (EL1 : 0 < phi L / Z.gcd (phi L) (phi h)).
    { apply Z.div_str_pos. split; [assumption|]. apply Z.divide_pos_le; [lia|apply Z.gcd_divide_l]. }
    assert (EL : phi L' = Z.lcm (phi L) (phi h)).
    { unfold L'. rewrite p_mul, div_spec, Eg by (rewrite div_spec, Eg; nia). rewrite Z.gcd_div_swap. unfold Z.lcm. 
      symmetry. apply Z.abs_eq. rewrite <- Z.gcd_div_swap. nia. }
    assert (DL' : (phi L' | n - 1)) by (rewrite EL; apply Z.lcm_least; assumption).
    assert (HL' : 0 < phi L').
    { pose proof (pb L'). destruct (Z.eq_dec (phi L') 0) as [E0|]; [|lia]. rewrite E0 in DL'. apply Z.divide_0_l in DL'. lia. }
    assert (phi L' <= n - 1) by (apply Z.divide_pos_le; [lia|exact DL']).
    rewrite p_leb, p_N31 in H1. destruct (Z.leb_spec (2 ^ 31) (phi L')); [lia|].
    assert (Dd' : (phi d' | n)) by (exists e; exact En).
    destruct (negb (PrimInt63.eqb (Uint63.gcd d' L') 1)) eqn:Egcd.
    { apply negb_true_iff in Egcd. rewrite p_eqb in Egcd. apply Z.eqb_neq in Egcd. apply Egcd. change (phi 1%uint63) with 1.
      destruct (Uint63.gcd_spec d' L') as [G1 G2 _]. apply Z.divide_1_r_nonneg; [apply pb|].
      replace 1 with (n - (n - 1)) by ring. apply Z.divide_sub_r; [apply Z.divide_trans with (phi d')|apply Z.divide_trans with (phi L')]; assumption. }
    clear Egcd. destruct (PrimInt63.leb (N31 /i d') (Tc *i L')).
    { destruct (cofactors_sound _ d' L' 1%uint63 e H1) as (x & Ex & Tx); [lia|reflexivity|change (phi 1%uint63) with 1; lia|lia| |].
      - replace (phi d' * e) with n by lia. exact DL'.
      - apply negb_true_iff in Tx. apply strong3_sound in Tx. apply Tx. rewrite p_mul, Ex by (rewrite Ex; lia).
        replace (phi d' * e) with n by lia. exact G. }
    apply andb_true_iff in H1 as [K1 K2].
    assert (Ee : n / phi d' = e) by (rewrite En; apply Z.div_mul; lia).
    assert (Hall' : forall p, prime p -> (p | e) -> 46341 <= p \/ exists qh, qh ∈ ps /\ phi qh.1 = p).
    { intros p Pp Dp. destruct (Hall p Pp) as [|(x & Hx & Ex)]; [rewrite He; apply Z.divide_mul_l, Dp|left; assumption|].
      right. apply elem_of_cons in Hx as [->|Hx]; [|exists x; auto]. exfalso. cbn [fst] in Ex. subst p.
      apply (nosq_sound q n Hsq Pq Hq G). destruct Dp as [u Hu]. exists (u * phi d). rewrite Hc, He, Hu. ring. }
    destruct (hit_dec ps e) as [Hex|Hnex].
    - apply (IH d' L' n K2); try assumption; [lia|rewrite Ee; exact Hall'|rewrite Ee; exact Hex].
    - apply (node_sound _ d' L' n K1); try assumption; [lia| |].
      + rewrite p_eqb. intros E1%Z.eqb_eq. change (phi 1%uint63) with 1 in E1. rewrite Ed, E1, Z.mul_1_l. exact Pq.
      + rewrite Ee. intros p Pp Dp. destruct (Hall' p Pp Dp) as [|(x & Hx & Ex)]; [assumption|]. exfalso.
        apply Hnex. exists x. rewrite Ex. auto.
  Qed.

  Lemma search_sound : case1 = true -> small_ok = true -> go cert 1 1 small = true -> forall n, good n -> prime n.
  Proof.
    intros H1 H2 H3 n G. destruct (prime_dec n) as [|Hnp]; [assumption|exfalso].
    assert (Hn : 1 < n < 2 ^ 31) by (destruct G; assumption).
    destruct (small_ok_sound H2) as [Hok Hcov].
    assert (Hall : forall p, prime p -> (p | n) -> 46341 <= p \/ exists qh, qh ∈ small /\ phi qh.1 = p).
    { intros p Pp Dp. destruct (Z_le_gt_dec 46341 p); [left; assumption|right].
      destruct (Z_le_gt_dec p 2048) as [Hle|Hgt].
      - apply Hcov; [exact Pp|eapply good_coprime3; eassumption|exact Hle].
      - exfalso. apply Hnp. rewrite (case1_sound H1 p n Pp ltac:(lia) G Dp). exact Pp. }
    assert (E1 : n / phi 1%uint63 = n) by apply Z.div_1_r.
    apply (go_sound small Hok 1%uint63 1%uint63 n H3); try assumption; try reflexivity; rewrite ?E1.
    - exists n. change (phi 1%uint63) with 1. lia.
    - exists (n - 1). change (phi 1%uint63) with 1. lia.
    - exact Hall.
    - destruct (hit_dec small n) as [|Hne]; [assumption|exfalso].
      destruct (big_factors n) as [|]; [lia| |lia|contradiction].
      intros p Pp Dp. destruct (Hall p Pp Dp) as [|(x & Hx & Ex)]; [assumption|]. exfalso. apply Hne. exists x. rewrite Ex. auto.
  Qed.
End Dfs.
Close Scope Z_scope.
