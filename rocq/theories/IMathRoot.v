(** Proofs for inv_gcd and primitive_root (src/math/internal_math.rs:154-234). *)
From Coq Require Import Znumtheory Zpow_facts.
From Verif Require Import Prelude NumTheory IntModel NumProof IMathModel IMathSpec IMathProof.
Open Scope Z_scope.

(** ** inv_gcd *)
Lemma inv_gcd_step_eq s t m0 m1 : inv_gcd_step (s, t, m0, m1) =
  if t =? 0 then Ok (inr (s, m0))
  else
    u ← idiv i64 s t;
    p ← imul i64 t u;
    s ← isub i64 s p;
    q ← imul i64 m1 u;
    m0 ← isub i64 m0 q;
    Ok (inl (t, s, m1, m0)).
Proof. reflexivity. Qed.

Definition ig_inv (a b : Z) (k : nat) (st : Z * Z * Z * Z) : Prop :=
  let '(s, t, m0, m1) := st in
  0 <= t < s /\ s <= b /\ (b | s - m0 * a) /\ (b | t - m1 * a) /\ s * Z.abs m1 + t * Z.abs m0 <= b /\
  s * Z.abs m0 < b /\ Z.gcd s t = Z.gcd a b /\ s * t < 2 ^ Z.of_nat k.

Lemma ig_bound s t u w m0 m1 b : s = t * u + w -> 0 <= w -> 0 < t -> 0 <= u ->
  s * Z.abs m1 + t * Z.abs m0 <= b -> t * Z.abs (m0 - m1 * u) + w * Z.abs m1 <= b /\ Z.abs (m1 * u) <= b.
Proof.
  intros -> Hw Ht Hu H.
  assert (E : Z.abs (m1 * u) = Z.abs m1 * u) by (rewrite Z.abs_mul, (Z.abs_eq u) by lia; reflexivity).
  assert (H1 : Z.abs (m0 - m1 * u) <= Z.abs m0 + Z.abs m1 * u) by lia.
  assert (H2 : t * Z.abs (m0 - m1 * u) <= t * (Z.abs m0 + Z.abs m1 * u)) by (apply Z.mul_le_mono_nonneg_l; lia).
  split; [lia|]. rewrite E.
  assert (0 <= Z.abs m1 * u) by (apply Z.mul_nonneg_nonneg; lia).
  assert (0 <= t * Z.abs m0) by (apply Z.mul_nonneg_nonneg; lia).
  assert (0 <= w * Z.abs m1) by (apply Z.mul_nonneg_nonneg; lia).
  assert (1 * (Z.abs m1 * u) <= t * (Z.abs m1 * u)) by (apply Z.mul_le_mono_nonneg_r; lia). lia.
Qed.

Lemma inv_gcd_ok a b : in_ty i64 a -> in_ty i64 b -> 1 <= b ->
  exists g x, inv_gcd a b = Ok (g, x) /\ inv_gcd_post a b g x.
Proof.
  intros Ha Hb Hb1. unfold inv_gcd. rewrite safe_mod_ok by assumption. cbn [mbind res_bind].
  rewrite i64_range in Hb. pose proof (Z.mod_pos_bound a b ltac:(lia)) as B.
  pose proof (Z.div_mod a b ltac:(lia)) as Ed.
  destruct (Z.eqb_spec (a mod b) 0) as [E|E].
  { exists b, 0. split; [reflexivity|]. unfold inv_gcd_post. rewrite E in Ed. split; [|split].
    - rewrite Ed, Z.add_0_r, Z.gcd_comm, Z.gcd_mul_diag_l; lia.
    - exists (-1). lia.
    - rewrite Z.div_same by lia. lia. }
  set (a' := a mod b) in *.
  destruct (rloop_inv_idx (ig_inv a' b)
    (fun r : Z * Z => let '(s, m0) := r in s = Z.gcd a' b /\ 0 < s /\ (b | s - m0 * a') /\ s * Z.abs m0 < b) inv_gcd_step) with
    (fuel := 200%nat) (m := 127%nat) (s := (b, a', 0, 1)) as ([s m0] & Hl & Hg & Hs & Hd & Hlt).
  - intros k [[[s t] m0] m1] (Ht & Hs & D1 & D2 & H3 & H4 & Hg & Hk). rewrite inv_gcd_step_eq.
    destruct (Z.eqb_spec t 0) as [->|Hn].
    { eexists. split; [reflexivity|]. cbv beta iota. rewrite Z.gcd_0_r, Z.abs_eq in Hg by lia.
      split; [exact Hg|]. split; [lia|]. split; assumption. }
    rewrite idiv_pos; [|cbn; lia|rewrite i64_range; lia..|lia|lia]. cbn [mbind res_bind].
    pose proof (Z.div_mod s t ltac:(lia)) as Es. pose proof (Z.mod_pos_bound s t ltac:(lia)) as Bs.
    pose proof (Z.div_pos s t ltac:(lia) ltac:(lia)) as Hu. set (u := s / t) in *. set (w := s mod t) in *. 
    assert (Ew : s - t * u = w) by lia.
    destruct (ig_bound s t u w m0 m1 b Es ltac:(lia) ltac:(lia) Hu H3) as [N3 N4].
    assert (Htu : 0 <= t * u <= s) by (split; [apply Z.mul_nonneg_nonneg; lia|lia]).
    assert (Hm0' : Z.abs (m0 - m1 * u) <= b).
    { assert (0 <= w * Z.abs m1) by (apply Z.mul_nonneg_nonneg; lia).
      assert (1 * Z.abs (m0 - m1 * u) <= t * Z.abs (m0 - m1 * u)) by (apply Z.mul_le_mono_nonneg_r; lia). lia. }
    rewrite (imul_ok i64 t u) by (rewrite i64_range; lia). cbn [mbind res_bind].
    rewrite (isub_ok i64 s (t * u)) by (rewrite i64_range; lia). cbn [mbind res_bind]. rewrite Ew.
    rewrite (imul_ok i64 m1 u) by (rewrite i64_range; lia). cbn [mbind res_bind].
    rewrite isub_ok by (rewrite i64_range; lia). cbn [mbind res_bind].
    eexists. split; [reflexivity|]. cbv beta iota.
    destruct k as [|k]. { change (2 ^ Z.of_nat 0) with 1 in Hk. assert (1 * 1 <= s * t) by (apply Z.mul_le_mono_nonneg; lia). lia. }
    exists k. split; [lia|]. unfold ig_inv.
    split; [lia|]. split; [lia|]. split; [exact D2|].
    split. { replace (w - (m0 - m1 * u) * a') with ((s - m0 * a') - u * (t - m1 * a')) by lia.
      apply Z.divide_sub_r; [exact D1|apply Z.divide_mul_r; exact D2]. }
    split; [lia|].
    split. { destruct (Z.eq_dec m1 0) as [->|Hm1]; [cbn; lia|].
      assert (t * Z.abs m1 < s * Z.abs m1) by (apply Z.mul_lt_mono_pos_r; lia).
      assert (0 <= t * Z.abs m0) by (apply Z.mul_nonneg_nonneg; lia). lia. }
    split. { rewrite <- Hg. unfold w. rewrite Z.gcd_comm, Z.gcd_mod by lia. apply Z.gcd_comm. }
    rewrite Nat2Z.inj_succ, Z.pow_succ_r in Hk by lia.
    assert (Hw2 : 2 * w <= s). { assert (1 <= u) by (unfold u; apply Z.div_le_lower_bound; lia). assert (t * 1 <= t * u) by (apply Z.mul_le_mono_nonneg_l; lia). lia. }
    assert (t * (2 * w) <= t * s) by (apply Z.mul_le_mono_nonneg_l; lia). lia.
  - unfold ig_inv. split; [lia|]. split; [lia|]. split; [exists 1; lia|]. split; [exists 0; lia|].
    split; [cbn; lia|]. split; [cbn; lia|]. split; [apply Z.gcd_comm|].
    assert (b * a' <= 2 ^ 63 * (2 ^ 63 - 1)) by (apply Z.mul_le_mono_nonneg; lia).
    change (2 ^ Z.of_nat 127) with (2 ^ 127). change (2 ^ 63 * (2 ^ 63 - 1)) with (2 ^ 126 - 2 ^ 63) in *. lia.
  - lia.
  - rewrite Hl. cbn [mbind res_bind].
    assert (Hga : Z.gcd a b = s). { rewrite Hg. unfold a'. rewrite Z.gcd_mod by lia. apply Z.gcd_comm. }
    assert (Hsb : (s | b)) by (rewrite Hg; apply Z.gcd_divide_r).
    assert (Hsa : (s | a')) by (rewrite Hg; apply Z.gcd_divide_l).
    destruct Hsb as [c Hc]. assert (Hdiv : b / s = c) by (rewrite Hc; apply Z.div_mul; lia).
    assert (Hm0 : Z.abs m0 < c) by (rewrite Hc, (Z.mul_comm c s) in Hlt; apply Z.mul_lt_mono_pos_l in Hlt; lia).
    assert (Hcb : c <= b). { rewrite Hc. assert (c * 1 <= c * s) by (apply Z.mul_le_mono_nonneg_l; lia). lia. }
    assert (Hpost : forall x, (b | s - x * a') -> (b | a * x - s)).
    { intros x Hx. replace (a * x - s) with (b * (a / b * x) - (s - x * a')).
      - apply Z.divide_sub_r; [apply Z.divide_factor_l|exact Hx].
      - rewrite Ed at 2. fold a'. ring. }
    destruct (Z.ltb_spec m0 0).
    + assert (s <= b) by (rewrite Hc; assert (1 * s <= c * s) by (apply Z.mul_le_mono_nonneg_r; lia); lia).
      rewrite idiv_pos; [|cbn; lia|rewrite i64_range; lia..|lia|lia]. cbn [mbind res_bind]. rewrite Hdiv.
      rewrite iadd_ok by (rewrite i64_range; lia). cbn [mbind res_bind].
      exists s, (m0 + c). split; [reflexivity|]. split; [auto|]. split; [|lia].
      apply Hpost. destruct Hsa as [e He]. 
      replace (s - (m0 + c) * a') with ((s - m0 * a') - b * e) by (rewrite Hc, He; ring).
      apply Z.divide_sub_r; [exact Hd|apply Z.divide_factor_l].
    + exists s, m0. split; [reflexivity|]. split; [auto|]. split; [|lia]. apply Hpost. exact Hd.
Qed.

(** ** Generators and orders modulo a prime *)
Definition full_order (m g : Z) : Prop := forall k, 0 <= k -> g ^ k mod m = 1 -> (m - 1 | k).

Lemma gcd_pos_full_order m g : prime m -> 1 <= g < m -> rel_prime g m.
Proof. intros Hp Hg. apply rel_prime_le_prime; assumption. Qed.

Lemma pow_mod_nonzero m g k : prime m -> 1 <= g < m -> 0 <= k -> 1 <= g ^ k mod m < m.
Proof.
  intros Hp Hg Hk. pose proof (prime_ge_2 m Hp). pose proof (Z.mod_pos_bound (g ^ k) m ltac:(lia)).
  assert (g ^ k mod m <> 0); [|lia]. intros E. apply Z.mod_divide in E; [|lia].
  assert (Hr : rel_prime m (g ^ k)) by (apply rel_prime_Zpower_r; [lia|]; apply rel_prime_sym, gcd_pos_full_order; assumption).
  assert (H1 : (m | 1)).
  { apply Gauss with (g ^ k); [rewrite Z.mul_1_r; exact E|exact Hr]. }
  apply Z.divide_1_r_nonneg in H1; lia.
Qed.

(** g has full order iff g^((m-1)/q) <> 1 for the prime divisors q of m - 1. *)
Lemma tests_full_order m g : prime m -> 1 <= g < m ->
  (forall q, prime q -> (q | m - 1) -> g ^ ((m - 1) / q) mod m <> 1) -> full_order m g.
Proof.
  intros Hp Hg Hq k Hk E. pose proof (prime_ge_2 m Hp) as H2.
  assert (Hr : rel_prime g m) by (apply gcd_pos_full_order; assumption).
  assert (Hnd : ~ (m | g)) by (intros Hd; apply Z.divide_pos_le in Hd; lia).
  pose proof (@fermat_Z m g Hp Hnd) as Hf.
  rewrite pow_mod_eq_iff in E, Hf by lia.
  pose proof (order_gcd m g k (m - 1) ltac:(lia) Hk ltac:(lia) Hr E Hf) as He.
  destruct (Z.gcd_divide_r k (m - 1)) as [c Hc].
  set (e := Z.gcd k (m - 1)) in *.
  assert (0 < e). { pose proof (Z.gcd_nonneg k (m - 1)). fold e in H. destruct (Z.eq_dec e 0) as [E0|]; [rewrite E0 in Hc; lia|lia]. }
  destruct (Z.eq_dec c 1) as [->|Hc1].
  { replace (m - 1) with e by lia. apply Z.gcd_divide_l. }
  exfalso. destruct (exists_prime_divisor c) as (q & Hqp & [d Hd]); [nia|].
  pose proof (prime_ge_2 q Hqp).
  apply (Hq q Hqp).
  - rewrite Hc, Hd. exists (d * e). ring.
  - assert (0 <= d * e) by nia.
    assert (Edq : (m - 1) / q = e * d) by (rewrite Hc, Hd; replace (d * q * e) with (e * d * q) by ring; apply Z.div_mul; lia).
    rewrite Edq, pow_mod_eq_iff by lia. rewrite Z.pow_mul_r by nia. apply dvd_pow_1; [nia|exact He].
Qed.

Lemma full_order_generator m g : prime m -> 1 <= g < m -> full_order m g -> generator m g.
Proof.
  intros Hp Hg Hfo x Hx. pose proof (prime_ge_2 m Hp) as H2.
  set (pw := map (fun k => g ^ k mod m) (seqZ 0 (m - 1))).
  assert (Hnd : List.NoDup pw).
  { unfold pw. apply NoDup_ListNoDup. apply NoDup_fmap_2_strong; [|apply NoDup_seqZ].
    intros i j Hi Hj E. apply elem_of_seqZ in Hi, Hj.
    assert (Hw : forall i j, 0 <= i <= j -> j < m - 1 -> g ^ i mod m = g ^ j mod m -> i = j).
    { clear - Hp Hg Hfo H2. intros i j Hij Hj E.
      assert (E1 : g ^ (j - i) mod m = 1).
      { rewrite pow_mod_eq_iff by lia. apply Gauss with (g ^ i).
        - replace (g ^ i * (g ^ (j - i) - 1)) with (g ^ i * g ^ (j - i) - g ^ i) by ring.
          rewrite <- Z.pow_add_r by lia. replace (i + (j - i)) with j by lia.
          apply Z.mod_divide; [lia|]. rewrite Zminus_mod, E, Z.sub_diag. reflexivity.
        - apply rel_prime_Zpower_r; [lia|]. apply rel_prime_sym, gcd_pos_full_order; assumption. }
      destruct (Hfo (j - i) ltac:(lia) E1) as [c Hc].
      destruct (Z.eq_dec c 0) as [->|]; [lia|]. assert (1 <= c) by nia. nia. }
    destruct (Z.le_gt_cases i j); [apply Hw; lia|symmetry; apply Hw; lia]. }
  assert (Hinc : List.incl (seqZ 1 (m - 1)) pw).
  { apply List.NoDup_length_incl; [exact Hnd| |].
    - unfold pw. rewrite map_length, !seqZ_length. lia.
    - intros y Hy. unfold pw in Hy. apply in_map_iff in Hy as (k & <- & Hk).
      apply elem_of_list_In, elem_of_seqZ in Hk. apply elem_of_list_In, elem_of_seqZ.
      pose proof (pow_mod_nonzero m g k Hp Hg ltac:(lia)). lia. }
  assert (Hin : In x pw) by (apply Hinc, elem_of_list_In, elem_of_seqZ; lia).
  unfold pw in Hin. apply in_map_iff in Hin as (k & Hk & Hin). apply elem_of_list_In, elem_of_seqZ in Hin.
  exists k. split; [lia|]. split; [lia|]. rewrite pow_mod_eq_iff in Hk by lia. exact Hk.
Qed.

Lemma generator_tests m g d : prime m -> 1 <= g < m -> generator m g -> 2 <= d -> (d | m - 1) -> g ^ ((m - 1) / d) mod m <> 1.
Proof.
  intros Hp Hg Hgen Hd [k Hk] E. pose proof (prime_ge_2 m Hp) as H2.
  assert (Ek : (m - 1) / d = k) by (rewrite Hk; apply Z.div_mul; lia). rewrite Ek in E.
  assert (Hk1 : 1 <= k < m - 1) by nia.
  assert (Hinc : List.incl (seqZ 1 (m - 1)) (map (fun j => g ^ j mod m) (seqZ 0 k))).
  { intros x Hx. apply elem_of_list_In, elem_of_seqZ in Hx. destruct (Hgen x) as (j & Hj & Hxm & Hxd); [lia|].
    apply in_map_iff. exists (j mod k). pose proof (Z.mod_pos_bound j k ltac:(lia)). split.
    - assert (Ex : g ^ j mod m = x) by (apply pow_mod_eq_iff; [lia..|exact Hxd]). rewrite <- Ex.
      rewrite (Z.div_mod j k) at 2 by lia. pose proof (Z.div_pos j k ltac:(lia) ltac:(lia)).
      rewrite Z.pow_add_r by nia. rewrite Z.pow_mul_r by lia. rewrite (Zmult_mod ((g ^ k) ^ (j / k))), (Zpower_mod (g ^ k)), E by lia.
      rewrite Z.pow_1_l by lia. rewrite (Z.mod_small 1), Z.mul_1_l, Z.mod_mod by lia. reflexivity.
    - apply elem_of_list_In, elem_of_seqZ. lia. }
  apply List.NoDup_incl_length in Hinc; [|apply NoDup_ListNoDup, NoDup_seqZ].
  rewrite map_length, !seqZ_length in Hinc. lia.
Qed.

(** ** root_test decides generators *)
Definition covers (m : Z) (ds : list Z) : Prop :=
  Forall (fun d => 2 <= d /\ (d | m - 1)) ds /\ forall q, prime q -> (q | m - 1) -> q ∈ ds.

Lemma root_test_ok m divs cnt g : prime m -> 2 < m -> in_ty i32 m -> (cnt <= length divs)%nat -> covers m (take cnt divs) ->
  1 <= g < m -> exists b, root_test m divs cnt g = Ok b /\ (b = true <-> generator m g).
Proof.
  intros Hp Hm2 Hm Hcnt [Hc1 Hc2] Hg. rewrite i32_range in Hm. unfold root_test, range.
  assert (Hinr : forall i d, (i < cnt)%nat -> divs !! i = Some d -> 2 <= d /\ (d | m - 1)).
  { intros i d Hi E. apply (Forall_lookup_1 _ _ i d Hc1). rewrite lookup_take by exact Hi. exact E. }
  destruct (rfor_range_inv (fun i (b : bool) => b = true <-> forall j d, (j < i)%nat -> divs !! j = Some d -> g ^ ((m - 1) / d) mod m <> 1)
    0 cnt (fun i (ok : bool) =>
    if ok then
      q ← vget divs i;
      m1 ← isub i32 m 1;
      k ← idiv i32 m1 q;
      y ← pow_mod g k m;
      Ok (negb (y =? 1))
    else Ok false) true) as (b & Hb & HI).
  - lia.
  - split; [|reflexivity]. intros _ j d Hj. lia.
  - intros i b Hi HI. destruct b.
    + destruct (vget_lt divs i) as (d & Ev & El); [lia|]. rewrite Ev. cbn [mbind res_bind].
      destruct (Hinr i d ltac:(lia) El) as [Hd2 Hdd]. assert (d <= m - 1) by (apply Z.divide_pos_le; [lia|exact Hdd]).
      rewrite isub_ok by (rewrite i32_range; lia). cbn [mbind res_bind].
      rewrite idiv_pos; [|cbn; lia|rewrite i32_range; lia..|lia|lia]. cbn [mbind res_bind].
      pose proof (Z.div_pos (m - 1) d ltac:(lia) ltac:(lia)).
      assert ((m - 1) / d <= m - 1) by (apply Z.div_le_upper_bound; nia).
      rewrite pow_mod_ok; [|rewrite i64_range; lia..|lia|rewrite i32_range; lia|lia]. cbn [mbind res_bind].
      eexists. split; [reflexivity|]. rewrite negb_true_iff, Z.eqb_neq. split.
      * intros Hne j dj Hj Ej. destruct (decide (j = i)) as [->|].
        { rewrite El in Ej. injection Ej as <-. exact Hne. }
        { eapply HI; [reflexivity| |exact Ej]. lia. }
      * intros Hall. apply (Hall i d); [lia|exact El].
    + exists false. split; [reflexivity|]. split; [discriminate|]. intros Hall. apply HI.
      intros j d Hj. apply Hall. lia.
  - exists b. split; [exact Hb|]. rewrite HI. split.
    + intros Hall. apply full_order_generator; [exact Hp|exact Hg|]. apply tests_full_order; [exact Hp|exact Hg|].
      intros q Hq Hqd. pose proof (Hc2 q Hq Hqd) as Hin. apply elem_of_list_lookup in Hin as [i Hi].
      apply lookup_take_Some in Hi as [Hi1 Hi2]. apply (Hall i); assumption.
    + intros Hgen j d Hj Ej. destruct (Hinr j d Hj Ej). apply generator_tests; assumption.
Qed.

(** ** prime_divs *)
Lemma small_pow3 (c : nat) x m : 2 * 3 ^ Z.of_nat c * x <= m - 1 -> 1 <= x -> m <= 2 ^ 31 -> (c <= 18)%nat.
Proof.
  intros H Hx Hm. destruct (decide (c <= 18)%nat) as [|Hn]; [assumption|]. exfalso.
  pose proof (Z.pow_le_mono_r 3 19 (Z.of_nat c) ltac:(lia) ltac:(lia)) as H3.
  assert (2 * 3 ^ Z.of_nat c * 1 <= 2 * 3 ^ Z.of_nat c * x) by (apply Z.mul_le_mono_nonneg_l; lia).
  change (3 ^ 19) with 1162261467 in H3. lia.
Qed.

Definition fd_inv (m : Z) (s : Z * Z * nat * list Z) : Prop :=
  let '(i, x, cnt, divs) := s in
  3 <= i <= 32771 /\ Z.odd i = true /\ 1 <= x /\ Z.odd x = true /\ (x | m - 1) /\ length divs = 20%nat /\ (1 <= cnt)%nat /\
  2 * 3 ^ Z.of_nat (cnt - 1) * x <= m - 1 /\
  Forall (fun d => 2 <= d /\ (d | m - 1)) (take cnt divs) /\
  (forall q, prime q -> (q | m - 1) -> (q | x) \/ q ∈ take cnt divs) /\
  (forall q, prime q -> (q | x) -> i <= q).

Lemma take_insert_snoc {A} (l : list A) c d : (c < length l)%nat -> take (c + 1) (<[c:=d]> l) = take c l ++ [d].
Proof.
  intros H. replace (c + 1)%nat with (S c) by lia.
  rewrite (take_S_r (<[c:=d]> l) c d) by (apply list_lookup_insert; exact H).
  rewrite take_insert by lia. reflexivity.
Qed.

Lemma odd_divide_odd x y : (x | y) -> Z.odd y = true -> Z.odd x = true.
Proof. intros [c ->] H. rewrite Z.odd_mul, andb_true_iff in H. tauto. Qed.

Lemma factor_step_eq i x cnt divs : factor_step (i, x, cnt, divs) =
  if negb (i <? it_max i32) then Ok (inr (x, cnt, divs))
  else
    sq ← imul i64 i i;
    if x <? sq then Ok (inr (x, cnt, divs))
    else
      r ← irem i32 x i;
      if r =? 0 then
        divs ← vset divs cnt i;
        x ← strip_factor x i;
        Ok (inl (i + 2, x, (cnt + 1)%nat, divs))
      else Ok (inl (i + 2, x, cnt, divs)).
Proof. reflexivity. Qed.

Lemma prime_divs_ok m : prime m -> 2 < m -> in_ty i32 m ->
  exists divs cnt, prime_divs m = Ok (divs, cnt) /\ (cnt <= length divs)%nat /\ covers m (take cnt divs).
Proof.
  intros Hp Hm2 Hm. rewrite i32_range in Hm. unfold prime_divs.
  rewrite vset_ok by (rewrite replicate_length; lia). cbn [mbind res_bind].
  rewrite isub_ok by (rewrite i32_range; lia). cbn [mbind res_bind].
  rewrite idiv_pos; [|cbn; lia|rewrite i32_range; lia..|lia|lia]. cbn [mbind res_bind].
  assert (Hodd : Z.odd m = true).
  { rewrite <- Z.negb_even, negb_true_iff. destruct (Z.even m) eqn:Ee; [|reflexivity]. exfalso.
    apply Z.even_spec in Ee as [c ->]. assert (H2 : (2 | 2 * c)) by (exists c; lia).
    apply (prime_div_prime 2) in H2; [lia|apply prime_2|exact Hp]. }
  assert (E2 : m - 1 = 2 * ((m - 1) / 2)).
  { apply Z.odd_spec in Hodd as [c ->]. replace (2 * c + 1 - 1) with (c * 2) by lia. rewrite Z.div_mul by lia. lia. }
  destruct (strip_loop i32 2 (fun d => r ← irem i32 d 2; if r =? 0 then d ← idiv i32 d 2; Ok (inl d) else Ok (inr d)))
    with (fuel := 64%nat) (x := (m - 1) / 2) as (k & x & Hk & Ex & Hx & Hxd & Hl).
  { cbn; lia. } { rewrite i32_range; lia. } { lia. } { reflexivity. } { rewrite i32_range; lia. }
  { change (2 ^ Z.of_nat 64) with (2 ^ 64). lia. }
  unfold strip_twos. rewrite Hl. cbn [mbind res_bind].
  assert (Hpk : 1 <= 2 ^ k) by (pose proof (Z.pow_pos_nonneg 2 k); lia).
  assert (Hxodd : Z.odd x = true).
  { rewrite <- Z.negb_even, negb_true_iff. destruct (Z.even x) eqn:Ee; [|reflexivity]. exfalso. apply Hxd.
    apply Z.even_spec in Ee as [c ->]. exists c. lia. }
  set (divs0 := <[0%nat:=2]> (replicate 20 0)).
  destruct (rloop_inv (fd_inv m)
    (fun r : Z * nat * list Z => let '(x, cnt, divs) := r in
      length divs = 20%nat /\ (1 <= cnt)%nat /\ 2 * 3 ^ Z.of_nat (cnt - 1) * x <= m - 1 /\ 1 <= x /\ Z.odd x = true /\ (x | m - 1) /\
      Forall (fun d => 2 <= d /\ (d | m - 1)) (take cnt divs) /\
      (forall q, prime q -> (q | m - 1) -> (q | x) \/ q ∈ take cnt divs) /\ (x = 1 \/ prime x))
    (fun s : Z * Z * nat * list Z => let '(i, _, _, _) := s in Z.to_nat (32773 - i)) factor_step) with
    (fuel := Z.to_nat 40000) (s := (3, x, 1%nat, divs0)) as ([[x' cnt] divs] & Hr & Hlen & Hc1 & H3 & Hx1 & Hx1o & Hx1d & Hf & Hq & Hxp).
  - clear -Hp Hm2 Hm. intros [[[i x] cnt] divs] (Hi & Hio & Hx & Hxo & Hxd & Hlen & Hc1 & H3 & Hf & Hq & Hqi).
    rewrite factor_step_eq. change (it_max i32) with 2147483647.
    destruct (Z.ltb_spec i 2147483647); [|lia]. cbn [negb].
    assert (Hii : 9 <= i * i <= 32771 * 32771) by (split; [change 9 with (3 * 3)|]; apply Z.mul_le_mono_nonneg; lia).
    rewrite imul_ok by (rewrite i64_range; lia). cbn [mbind res_bind].
    assert (Hcnt : (cnt - 1 <= 18)%nat) by (eapply small_pow3; [exact H3|lia|lia]).
    assert (Hxm : 2 * x <= m - 1).
    { assert (1 <= 3 ^ Z.of_nat (cnt - 1)) by (pose proof (Z.pow_pos_nonneg 3 (Z.of_nat (cnt - 1))); lia). nia. }
    destruct (Z.ltb_spec x (i * i)) as [Hlt|Hge].
    { eexists. split; [reflexivity|]. cbv beta iota. repeat (split; [assumption|]).
      destruct (Z.eq_dec x 1); [left; assumption|right].
      destruct (prime_dec x) as [|Hnp]; [assumption|exfalso].
      destruct (not_prime_divide x ltac:(lia) Hnp) as (c & Hc & [e He]).
      destruct (exists_prime_divisor c) as (p1 & Hp1 & Hd1); [lia|].
      assert (1 < e) by nia.
      destruct (exists_prime_divisor e) as (p2 & Hp2 & Hd2); [lia|].
      assert (i <= p1) by (apply Hqi; [exact Hp1|rewrite He; apply Z.divide_mul_r; exact Hd1]).
      assert (i <= p2) by (apply Hqi; [exact Hp2|rewrite He; apply Z.divide_mul_l; exact Hd2]).
      apply Z.divide_pos_le in Hd1; [|lia]. apply Z.divide_pos_le in Hd2; [|lia]. clear - He Hlt Hd1 Hd2 H1 H2 Hi. nia. }
    assert (Hi2 : i <= 32767).
    { assert (i * i <= 32768 * 32768) by lia. assert (i <= 32768) by (clear -H0 Hi; nia). 
      destruct (Z.eq_dec i 32768) as [->|]; [discriminate|lia]. }
    assert (Hstep : Z.odd (i + 2) = true) by (rewrite Z.odd_add, Hio; reflexivity).
    assert (Hnext : forall y, (y | x) -> ~ (i | y) -> forall q, prime q -> (q | y) -> i + 2 <= q).
    { intros y Hyx Hny q Hqp Hqy.
      assert (i <= q) by (apply Hqi; [exact Hqp|eapply Z.divide_trans; eassumption]).
      assert (q <> i) by (intros ->; contradiction).
      assert (Z.odd q = true) by (eapply odd_divide_odd; [|exact Hxo]; eapply Z.divide_trans; eassumption).
      destruct (Z.eq_dec q (i + 1)) as [->|]; [|lia]. rewrite Z.odd_add, Hio in *. discriminate. }
    rewrite irem_pos; [|cbn; lia|rewrite i32_range; lia..|lia|lia]. cbn [mbind res_bind].
    destruct (Z.eqb_spec (x mod i) 0) as [E|E].
    + rewrite vset_ok by lia. cbn [mbind res_bind].
      destruct (strip_loop i32 i (fun x => r ← irem i32 x i; if r =? 0 then x ← idiv i32 x i; Ok (inl x) else Ok (inr x)))
        with (fuel := 32%nat) (x := x) as (k & y & Hk & Ex & Hy & Hyd & Hl).
      { cbn; lia. } { rewrite i32_range; lia. } { lia. } { reflexivity. } { rewrite i32_range; lia. }
      { change (2 ^ Z.of_nat 32) with (2 ^ 32). lia. }
      unfold strip_factor. rewrite Hl. cbn [mbind res_bind].
      eexists. split; [reflexivity|]. cbv beta iota. split; [|lia]. unfold fd_inv.
      assert (Hyx : (y | x)) by (rewrite Ex; apply Z.divide_factor_r).
      assert (Hk1 : 1 <= k).
      { destruct (Z.eq_dec k 0) as [->|]; [|lia]. rewrite Z.pow_0_r, Z.mul_1_l in Ex. subst y.
        apply Z.mod_divide in E; [contradiction|lia]. }
      assert (H3y : 3 * y <= x).
      { rewrite Ex. apply Z.mul_le_mono_nonneg_r; [lia|]. replace k with (Z.succ (k - 1)) by lia. rewrite Z.pow_succ_r by lia.
        pose proof (Z.pow_pos_nonneg i (k - 1)). nia. }
      split; [lia|]. split; [exact Hstep|]. split; [lia|]. split; [eapply odd_divide_odd; eassumption|].
      split; [eapply Z.divide_trans; eassumption|]. split; [rewrite insert_length; exact Hlen|]. split; [lia|].
      rewrite take_insert_snoc by lia.
      split. { replace (cnt + 1 - 1)%nat with (S (cnt - 1)) by lia. rewrite Nat2Z.inj_succ, Z.pow_succ_r by lia.
        set (w := 3 ^ Z.of_nat (cnt - 1)) in *. assert (0 <= w) by (apply Z.pow_nonneg; lia).
        assert (2 * w * (3 * y) <= 2 * w * x) by (apply Z.mul_le_mono_nonneg_l; lia). lia. }
      split. { apply Forall_app. split; [exact Hf|]. apply Forall_singleton. split; [lia|].
        eapply Z.divide_trans; [|exact Hxd]. apply Z.mod_divide; [lia|exact E]. }
      split. { intros q Hqp Hqd. rewrite elem_of_app, elem_of_list_singleton. destruct (Hq q Hqp Hqd) as [Hqx|Hin]; [|auto].
        rewrite Ex in Hqx. pose proof Hqx as Hqx'. apply prime_mult in Hqx; [|exact Hqp]. destruct Hqx as [Hqx|Hqx]; [|auto].
        right. right. assert (Hqi' : (q | i)).
        { revert Hqx. clear -Hqp Hk. pattern k. apply natlike_ind; [| |exact Hk].
          - rewrite Z.pow_0_r. intros H1. pose proof (prime_ge_2 q Hqp). apply Z.divide_1_r_nonneg in H1; lia.
          - intros j Hj IH. rewrite Z.pow_succ_r by lia. intros H. apply prime_mult in H; [|exact Hqp]. tauto. }
        assert (i <= q) by (apply Hqi; [exact Hqp|rewrite Ex; exact Hqx']).
        apply Z.divide_pos_le in Hqi'; lia. }
      apply Hnext; assumption.
    + eexists. split; [reflexivity|]. cbv beta iota. split; [|lia]. unfold fd_inv.
      split; [lia|]. repeat (split; [assumption|]). apply Hnext; [apply Z.divide_refl|].
      rewrite <- Z.mod_divide by lia. exact E.
  - unfold fd_inv. split; [lia|]. split; [reflexivity|]. split; [lia|]. split; [exact Hxodd|].
    split. { rewrite E2, Ex. exists (2 * 2 ^ k). ring. }
    split; [reflexivity|]. split; [lia|].
    split. { change (3 ^ Z.of_nat (1 - 1)) with 1. rewrite E2, Ex. nia. }
    split. { apply Forall_singleton. split; [lia|]. rewrite E2. apply Z.divide_factor_l. }
    split. { intros q Hqp Hqd. rewrite E2, Ex in Hqd. rewrite Z.mul_assoc in Hqd.
      apply prime_mult in Hqd; [|exact Hqp]. destruct Hqd as [Hqd|]; [right|left; assumption].
      rewrite <- Z.pow_succ_r in Hqd by lia. apply elem_of_list_singleton.
      assert (H2 : (q | 2)).
      { revert Hqd. assert (Hk' : 0 <= Z.succ k) by lia. clear -Hqp Hk'. pattern (Z.succ k). apply natlike_ind; [| |exact Hk'].
        - rewrite Z.pow_0_r. intros H1. pose proof (prime_ge_2 q Hqp). apply Z.divide_1_r_nonneg in H1; lia.
        - intros j Hj IH. rewrite Z.pow_succ_r by lia. intros H. apply prime_mult in H; [|exact Hqp]. tauto. }
      pose proof (prime_ge_2 q Hqp). apply Z.divide_pos_le in H2; lia. }
    intros q Hqp Hqx. pose proof (prime_ge_2 q Hqp).
    assert (Z.odd q = true) by (eapply odd_divide_odd; eassumption). destruct (Z.eq_dec q 2) as [->|]; [discriminate|lia].
  - lia.
  - rewrite Hr. cbn [mbind res_bind].
    assert (Hcnt : (cnt - 1 <= 18)%nat) by (eapply small_pow3; [exact H3|lia|lia]).
    destruct (Z.ltb_spec 1 x').
    + rewrite vset_ok by lia. cbn [mbind res_bind]. eexists _, _. split; [reflexivity|].
      rewrite insert_length. split; [lia|]. rewrite take_insert_snoc by lia. split.
      * apply Forall_app. split; [exact Hf|]. apply Forall_singleton. split; [lia|exact Hx1d].
      * intros q Hqp Hqd. rewrite elem_of_app, elem_of_list_singleton. destruct (Hq q Hqp Hqd) as [Hqx|Hin]; [|auto].
        right. destruct Hxp as [|Hxp]; [lia|]. apply prime_div_prime; assumption.
    + exists divs, cnt. split; [reflexivity|]. split; [lia|]. split; [exact Hf|].
      intros q Hqp Hqd. destruct (Hq q Hqp Hqd) as [Hqx|Hin]; [|exact Hin].
      exfalso. assert (x' = 1) by lia. subst x'. pose proof (prime_ge_2 q Hqp). apply Z.divide_1_r_nonneg in Hqx; lia.
Qed.

(** ** primitive_root *)
Lemma one_not_generator m : 2 < m -> ~ generator m 1.
Proof.
  intros Hm H. destruct (H 2) as (k & Hk & _ & Hd); [lia|]. rewrite Z.pow_1_l in Hd by exact Hk.
  apply Z.divide_opp_r in Hd. apply Z.divide_1_r_nonneg in Hd; lia.
Qed.

Lemma primitive_root_loop m divs cnt : prime m -> 2 < m -> in_ty i32 m -> (cnt <= length divs)%nat -> covers m (take cnt divs) ->
  exists g, rloop (Z.to_nat m) (fun g =>
      ok ← root_test m divs cnt g;
      if (ok : bool) then Ok (inr (wrap i32 g)) else g ← iadd i64 g 1; Ok (inl g)) 2 = Ok g /\ least_generator m g.
Proof.
  intros Hp Hm2 Hm Hcnt Hcov. pose proof Hm as Hm'. rewrite i32_range in Hm'.
  destruct (@prim_root_Z m Hp) as (h & Hh & Hord).
  assert (Hgen : generator m h) by (apply full_order_generator; [exact Hp|lia|exact Hord]).
  destruct (rloop_inv (fun g => 2 <= g <= h /\ forall x, 1 <= x < g -> ~ generator m x) (least_generator m) (fun g => Z.to_nat (m - g))
    (fun g => ok ← root_test m divs cnt g;
      if (ok : bool) then Ok (inr (wrap i32 g)) else g ← iadd i64 g 1; Ok (inl g))) with (fuel := Z.to_nat m) (s := 2) as (g & Hl & Hg).
  - intros g [Hg Hmin]. destruct (root_test_ok m divs cnt g) as (b & -> & Hb); [assumption..|lia|]. cbn [mbind res_bind].
    destruct b.
    + eexists. split; [reflexivity|]. cbv beta iota. rewrite wrap_i32 by lia. split; [lia|]. split; [apply Hb; reflexivity|exact Hmin].
    + rewrite iadd_ok by (rewrite i64_range; lia). cbn [mbind res_bind]. eexists. split; [reflexivity|]. cbv beta iota.
      assert (~ generator m g) by (intros H%Hb; discriminate).
      assert (g <> h) by (intros ->; contradiction).
      split; [|lia]. split; [lia|]. intros x Hx. destruct (Z.eq_dec x g) as [->|]; [assumption|]. apply Hmin. lia.
  - split.
    + destruct (Z.eq_dec h 1) as [->|]; [|lia]. exfalso. eapply one_not_generator; eassumption.
    + intros x Hx. assert (x = 1) as -> by lia. apply one_not_generator. lia.
  - lia.
  - exists g. split; assumption.
Qed.

(** The shortcut for known primes: checked with the same test. *)
Lemma known_root m ds g : prime m -> 2 < m -> in_ty i32 m -> covers m ds -> 2 <= g < m ->
  Forall (fun h => root_test m ds (length ds) h = Ok false) (seqZ 2 (g - 2)) -> root_test m ds (length ds) g = Ok true ->
  least_generator m g.
Proof.
  intros Hp Hm2 Hm Hc Hg Hlow Hok.
  assert (T : forall h, 1 <= h < m -> exists b, root_test m ds (length ds) h = Ok b /\ (b = true <-> generator m h)).
  { intros h Hh. apply root_test_ok; try assumption; [lia|]. rewrite firstn_all. exact Hc. }
  split; [lia|]. split.
  - destruct (T g) as (b & E & Hb); [lia|]. apply Hb. congruence.
  - intros h Hh. destruct (Z.eq_dec h 1) as [->|]; [apply one_not_generator; lia|].
    destruct (T h) as (b & E & Hb); [lia|]. rewrite Forall_forall in Hlow.
    rewrite Hlow in E by (apply elem_of_seqZ; lia). intros H%Hb. congruence.
Qed.

Lemma covers_list m ds es : Forall (fun d => 2 <= d) ds -> length es = length ds -> Forall prime ds -> Forall (fun e => 1 <= e) es ->
  m - 1 = foldr Z.mul 1 (zip_with Z.pow ds es) -> covers m ds.
Proof.
  intros H2 Hlen Hp He E. split.
  - rewrite E. clear E m. revert es Hlen He. induction ds as [|d ds IH]; intros es Hlen He; [constructor|].
    destruct es as [|e es]; [discriminate|]. cbn [zip_with foldr].
    apply Forall_cons in H2 as [H2 H2s]. apply Forall_cons in He as [He Hes]. apply Forall_cons in Hp as [Hpd Hps].
    constructor.
    + split; [exact H2|]. replace e with (Z.succ (e - 1)) by lia. rewrite Z.pow_succ_r by lia.
      rewrite <- Z.mul_assoc. apply Z.divide_factor_l.
    + eapply Forall_impl; [apply (IH H2s Hps es); [injection Hlen as ->; reflexivity|exact Hes]|].
      cbv beta. intros x [Hx Hd]. split; [exact Hx|]. apply Z.divide_mul_r. exact Hd.
  - intros q Hq. rewrite E. clear E m. revert es Hlen He. induction ds as [|d ds IH]; intros es Hlen He Hd.
    { destruct es; [|discriminate]. cbn in Hd. pose proof (prime_ge_2 q Hq). apply Z.divide_1_r_nonneg in Hd; lia. }
    destruct es as [|e es]; [discriminate|]. cbn [zip_with foldr] in Hd.
    apply Forall_cons in H2 as [H2 H2s]. apply Forall_cons in He as [He Hes]. apply Forall_cons in Hp as [Hpd Hps].
    apply prime_mult in Hd; [|exact Hq]. destruct Hd as [Hd|Hd].
    + apply elem_of_cons. left.
      assert (Hqd : (q | d)).
      { revert Hd. assert (He0 : 0 <= e) by lia. clear -Hq He0. pattern e. apply natlike_ind; [| |exact He0].
        - rewrite Z.pow_0_r. intros H1. pose proof (prime_ge_2 q Hq). apply Z.divide_1_r_nonneg in H1; lia.
        - intros j Hj IH. rewrite Z.pow_succ_r by lia. intros H. apply prime_mult in H; [|exact Hq]. tauto. }
      apply prime_div_prime; assumption.
    + apply elem_of_cons. right. apply (IH H2s Hps es); [injection Hlen as ->; reflexivity|assumption..].
Qed.

Lemma prime_small p : 1 < p -> Forall (fun k => p mod k <> 0) (seqZ 2 (p - 2)) -> prime p.
Proof.
  intros Hp H. apply prime_alt. split; [exact Hp|]. intros k Hk Hd. apply Z.mod_divide in Hd; [|lia].
  rewrite Forall_forall in H. apply (H k); [|exact Hd]. apply elem_of_seqZ. lia.
Qed.
Lemma prime_5 : prime 5.
Proof. apply prime_small; [lia|]. apply (bool_decide_unpack _). vm_compute. exact I. Qed.
Lemma prime_17 : prime 17.
Proof. apply prime_small; [lia|]. apply (bool_decide_unpack _). vm_compute. exact I. Qed.

Ltac known ds es :=
  apply (known_root _ ds); [assumption|lia|rewrite i32_range; lia| |lia| |vm_compute; reflexivity];
  [apply (covers_list _ ds es);
    [repeat first [apply Forall_nil_2|apply Forall_cons_2; [lia|]]|reflexivity|
     repeat first [apply Forall_nil_2|apply Forall_cons_2; [solve [auto using prime_2, prime_3, prime_5, prime_7, prime_17]|]]|
     repeat first [apply Forall_nil_2|apply Forall_cons_2; [lia|]]|reflexivity]
  |match goal with |- Forall _ (seqZ ?a ?b) => let l := eval vm_compute in (seqZ a b) in change (seqZ a b) with l end;
   repeat first [apply Forall_nil_2|apply Forall_cons_2; [vm_compute; reflexivity|]]].

Lemma primitive_root_ok m : prime m -> in_ty i32 m -> exists g, primitive_root m = Ok g /\ least_generator m g.
Proof.
  intros Hp Hm. unfold primitive_root. pose proof (prime_ge_2 m Hp).
  destruct (Z.eqb_spec m 2) as [->|Hn2].
  { exists 1. split; [reflexivity|]. split; [lia|]. split; [|intros; lia].
    intros x Hx. exists 0. split; [lia|]. split; [lia|]. exists 0. assert (x = 1) by lia. subst. reflexivity. }
  destruct (Z.eqb_spec m 167772161) as [->|]. { exists 3. split; [reflexivity|]. known [2; 5] [25; 1]. }
  destruct (Z.eqb_spec m 469762049) as [->|]. { exists 3. split; [reflexivity|]. known [2; 7] [26; 1]. }
  destruct (Z.eqb_spec m 754974721) as [->|]. { exists 11. split; [reflexivity|]. known [2; 3; 5] [24; 2; 1]. }
  destruct (Z.eqb_spec m 998244353) as [->|]. { exists 3. split; [reflexivity|]. known [2; 7; 17] [23; 1; 1]. }
  destruct (prime_divs_ok m) as (divs & cnt & -> & Hc & Hcov); [assumption|lia|assumption|]. cbn [mbind res_bind].
  apply primitive_root_loop; try assumption. lia.
Qed.

(** A non-generator misses a residue (no classical logic: the residues are finite and the powers periodic). *)
Lemma least_not_generator m h : prime m -> 1 <= h < m -> ~ generator m h ->
  exists x, 1 <= x < m /\ forall k, 0 <= k -> ~ mod_of (h ^ k) m x.
Proof.
  intros Hp Hh Hng. pose proof (prime_ge_2 m Hp) as H2.
  set (pw := map (fun k => h ^ k mod m) (seqZ 0 (m - 1))).
  destruct (decide (Exists (fun x => x ∉ pw) (seqZ 1 (m - 1)))) as [He|Hne].
  - apply Exists_exists in He as (x & Hx & Hn). apply elem_of_seqZ in Hx. exists x. split; [lia|].
    intros k Hk [_ Hd]. apply Hn. apply elem_of_list_In, in_map_iff. exists (k mod (m - 1)).
    pose proof (Z.mod_pos_bound k (m - 1) ltac:(lia)). split; [|apply elem_of_list_In, elem_of_seqZ; lia].
    assert (Ex : h ^ k mod m = x) by (apply pow_mod_eq_iff; [lia..|exact Hd]). rewrite <- Ex.
    rewrite (Z.div_mod k (m - 1)) at 2 by lia. pose proof (Z.div_pos k (m - 1) ltac:(lia) ltac:(lia)).
    rewrite Z.pow_add_r by nia. rewrite Z.pow_mul_r by lia.
    rewrite (Zmult_mod ((h ^ (m - 1)) ^ (k / (m - 1)))), (Zpower_mod (h ^ (m - 1))) by lia.
    rewrite (@fermat_Z m h Hp) by (intros Hdv; apply Z.divide_pos_le in Hdv; lia).
    rewrite Z.pow_1_l by lia. rewrite (Z.mod_small 1), Z.mul_1_l, Z.mod_mod by lia. reflexivity.
  - exfalso. apply Hng. intros x Hx.
    assert (Hin : x ∈ pw).
    { destruct (decide (x ∈ pw)) as [|Hn]; [assumption|]. exfalso. apply Hne, Exists_exists. exists x.
      split; [apply elem_of_seqZ; lia|exact Hn]. }
    apply elem_of_list_In, in_map_iff in Hin as (k & Hk & Hin). apply elem_of_list_In, elem_of_seqZ in Hin.
    exists k. split; [lia|]. split; [lia|]. rewrite pow_mod_eq_iff in Hk by lia. exact Hk.
Qed.
Close Scope Z_scope.
