(** Soundness of the certificates of PspInt.v, and the result: a number below 2^31 passing the three strong tests is prime. *)
From Coq Require Import Znumtheory Zpow_facts Uint63 List.
From stdpp Require Import prelude.
From Verif Require Import IMathSpec NumTheory PspMath PspInt PspSound PspCert PspRun.
Open Scope Z_scope.
Local Notation phi := to_Z.
(* compare calls of these by their arguments first *)
Strategy 100 [check_certs mull mul1 addl].

Fixpoint val (l : list int) : Z := match l with [] => 0 | x :: l => phi x + 2 ^ 31 * val l end.
Definition limb (x : int) : Prop := phi x < 2 ^ 31.

Lemma limbs_ok l : limbs l = true -> Forall limb l.
Proof.
  unfold limbs. rewrite forallb_forall. intros H. apply Forall_forall. intros x Hx%elem_of_list_In.
  apply H in Hx. rewrite p_ltb in Hx. apply Z.ltb_lt in Hx. exact Hx.
Qed.

Lemma split31 t z : phi t = z -> phi (t mod N31)%uint63 = z mod 2 ^ 31 /\ phi (t / N31)%uint63 = z / 2 ^ 31.
Proof. intros <-. rewrite mod_spec, div_spec. split; reflexivity. Qed.

Lemma mul1_val l k : Forall limb l -> limb k -> forall c, limb c ->
  val (mul1 l k c) = val l * phi k + phi c /\ Forall limb (mul1 l k c).
Proof.
  unfold limb. intros Hl Hk. induction Hl as [|x l Hx Hl IH]; intros c Hc; cbn [mul1 val].
  - split; [lia|]. repeat constructor. exact Hc.
  - pose proof (pb x). pose proof (pb k). pose proof (pb c).
    assert (E : phi (x * k + c)%uint63 = phi x * phi k + phi c) by (rewrite p_add, p_mul; rewrite ?p_mul; nia).
    destruct (split31 _ _ E) as [E1 E2]. set (z := phi x * phi k + phi c) in *.
    pose proof (Z.div_mod z (2 ^ 31) ltac:(lia)). pose proof (Z.mod_pos_bound z (2 ^ 31) ltac:(lia)).
    assert (z / 2 ^ 31 < 2 ^ 31) by (apply Z.div_lt_upper_bound; nia).
    destruct (IH ((x * k + c) / N31)%uint63) as [V F]; [rewrite E2; assumption|].
    rewrite V, E1, E2. split; [nia|]. constructor; [rewrite E1; lia|exact F].
Qed.

Lemma addl_val a b : Forall limb a -> Forall limb b -> forall c, phi c <= 1 ->
  val (addl a b c) = val a + val b + phi c /\ Forall limb (addl a b c).
Proof.
  intros Ha. revert b. induction Ha as [|x a Hx Ha IH]; intros b Hb c Hc.
  - cbn [addl val]. destruct (mul1_val b 1%uint63 Hb) with (c := c) as [V F]; [reflexivity|unfold limb; lia|].
    rewrite V. change (phi 1%uint63) with 1. split; [lia|exact F].
  - destruct Hb as [|y b Hy Hb].
    + cbn [addl]. destruct (mul1_val (x :: a) 1%uint63) with (c := c) as [V F]; [constructor; assumption|reflexivity|unfold limb; lia|].
      rewrite V. change (phi 1%uint63) with 1. cbn [val]. split; [lia|exact F].
    + cbn [addl val]. unfold limb in Hx, Hy. pose proof (pb x). pose proof (pb y). pose proof (pb c).
      assert (E : phi (x + y + c)%uint63 = phi x + phi y + phi c) by (rewrite p_add, p_add; rewrite ?p_add; lia).
      destruct (split31 _ _ E) as [E1 E2]. set (z := phi x + phi y + phi c) in *.
      pose proof (Z.div_mod z (2 ^ 31) ltac:(lia)). pose proof (Z.mod_pos_bound z (2 ^ 31) ltac:(lia)).
      assert (z / 2 ^ 31 < 2) by (apply Z.div_lt_upper_bound; lia).
      destruct (IH b Hb ((x + y + c) / N31)%uint63) as [V F]; [lia|].
      rewrite V, E1, E2. split; [lia|]. constructor; [unfold limb; rewrite E1; lia|exact F].
Qed.

Lemma mull_val a b : Forall limb a -> Forall limb b -> val (mull a b) = val a * val b /\ Forall limb (mull a b).
Proof.
  intros Ha Hb. induction Ha as [|x a Hx Ha [V F]]; cbn [mull val]; [split; [lia|constructor]|].
  destruct (mul1_val b x Hb Hx 0%uint63 eq_refl) as [V1 F1].
  destruct (addl_val (mul1 b x 0%uint63) (0%uint63 :: mull a b) F1) with (c := 0%uint63) as [V2 F2]; [constructor; [reflexivity|exact F]|discriminate|].
  split; [|exact F2]. rewrite V2, V1. cbn [val]. rewrite V. change (phi 0%uint63) with 0. lia.
Qed.

Lemma allz_val l : allz l = true -> val l = 0.
Proof.
  induction l as [|x l IH]; [reflexivity|]. unfold allz. cbn [forallb val]. intros [H1 H2]%andb_true_iff.
  rewrite p_eqb in H1. apply Z.eqb_eq in H1. change (phi 0%uint63) with 0 in H1. rewrite H1, (IH H2). reflexivity.
Qed.
Lemma eql_val a : forall b, eql a b = true -> val a = val b.
Proof.
  induction a as [|x a IH]; intros b H.
  - cbn [eql] in H. symmetry. apply allz_val. destruct b; exact H.
  - destruct b as [|y b]; [cbn [eql] in H; apply allz_val; exact H|]. cbn [eql] in H. apply andb_true_iff in H as [H1 H2].
    rewrite p_eqb in H1. apply Z.eqb_eq in H1. cbn [val]. rewrite H1, (IH b H2). reflexivity.
Qed.

Lemma prodl_val fs : Forall limb fs -> val (prodl fs) = foldr (fun f z => z * phi f) 1 fs /\ Forall limb (prodl fs).
Proof.
  intros H. induction H as [|f fs Hf H [V F]]; [split; [reflexivity|repeat constructor]|].
  unfold prodl. cbn [fold_right foldr]. fold (prodl fs). destruct (mul1_val (prodl fs) f F Hf 0%uint63 eq_refl) as [V1 F1].
  split; [|exact F1]. rewrite V1, V. change (phi 0%uint63) with 0. lia.
Qed.
Lemma prime_prod p fs : prime p -> (p | foldr (fun f z => z * phi f) 1 fs) -> exists f, f ∈ fs /\ (p | phi f).
Proof.
  intros Hp. induction fs as [|f fs IH]; cbn [foldr]; intros H.
  - apply Z.divide_1_r_nonneg in H; pose proof (prime_ge_2 p Hp); lia.
  - apply prime_mult in H as [H|H]; [| |exact Hp].
    + destruct (IH H) as (g & Hg & Hd). exists g. split; [right; exact Hg|exact Hd].
    + exists f. split; [left|exact H].
Qed.

Lemma ok_factor_sound k f p : ok_factor k f = true -> phi k < 1024 -> prime p -> 46341 <= p -> (p | phi f) -> limb f /\ ~ good (phi k * p).
Proof.
  unfold ok_factor. rewrite andb_true_iff, orb_true_iff, !andb_true_iff, !negb_true_iff, !p_ltb, !p_eqb, !mod_spec, !Z.ltb_lt, !Z.eqb_neq.
  change (phi 0%uint63) with 0. change (phi Sq) with 46341. change (phi (5 * Sq)%uint63) with 231705.
  change (phi 2%uint63) with 2. change (phi 3%uint63) with 3.
  intros (H0 & H) Hk Hp Hp0 Hd. assert (p <= phi f) by (apply Z.divide_pos_le; assumption).
  destruct H as [H|(Hf5 & H2 & H3 & H4)]; [lia|]. split; [unfold limb; lia|].
  destruct Hd as [c Hc]. assert (c = 1) as ->.
  { assert (1 <= c <= 4) by nia. assert (c = 1 \/ c = 2 \/ c = 3 \/ c = 4) as [-> | [-> | [-> | ->]]] by lia; [reflexivity|exfalso..].
    - apply H2. rewrite Hc. rewrite Z.mul_comm. apply Z.mod_mul. lia.
    - apply H3. rewrite Hc. rewrite Z.mul_comm. apply Z.mod_mul. lia.
    - apply H2. rewrite Hc. replace (4 * p) with (2 * p * 2) by ring. apply Z.mod_mul. lia. }
  intros G. apply strong3_sound in H4. apply H4. pose proof (pb k). rewrite p_mul by nia. rewrite Hc, Z.mul_1_l. exact G.
Qed.
Lemma ok_factor_limb k f : ok_factor k f = true -> limb f.
Proof.
  unfold ok_factor. rewrite andb_true_iff, orb_true_iff, !andb_true_iff, !p_ltb, !Z.ltb_lt.
  change (phi Sq) with 46341. change (phi (5 * Sq)%uint63) with 231705. unfold limb. lia.
Qed.

Lemma check_cert_sound A B c m : Forall limb A -> Forall limb B -> val A = 7 ^ m -> val B = 2 ^ m -> 0 <= m ->
  phi (cert_k c) = m + 1 -> m < 1023 -> check_cert A B c = true ->
  forall p, prime p -> 46341 <= p -> ~ good (phi (cert_k c) * p).
Proof.
  destruct c as [[[k v] w] fs]. unfold cert_k. cbn [fst]. unfold check_cert.
  intros FA FB VA VB Hm Hk Hk0 H p Hp Hp0 G. rewrite !andb_true_iff in H. destruct H as (H1 & H2 & H3 & H4).
  apply limbs_ok in H1, H2. rewrite forallb_forall in H3.
  assert (Ff : Forall limb fs). { apply Forall_forall. intros f Hf%elem_of_list_In. apply (ok_factor_limb k), H3, Hf. }
  destruct (mull_val v A H1 FA) as [V1 F1]. destruct (addl_val _ w F1 H2 0%uint63) as [V2 F2]; [discriminate|].
  destruct (prodl_val fs Ff) as [V3 F3]. destruct (addl_val v _ H1 F3 0%uint63) as [V4 F4]; [discriminate|].
  destruct (mull_val w B H2 FB) as [V5 F5]. destruct (addl_val _ _ F4 F5 0%uint63) as [V6 F6]; [discriminate|].
  apply eql_val in H4. rewrite V2, V1, V6, V4, V5, V3, VA, VB in H4. change (phi 0%uint63) with 0 in H4.
  destruct (good_cofactor (phi k) p ltac:(lia) G Hp) as (D2 & D7 & _). replace (phi k - 1) with m in D2, D7 by lia.
  destruct (prime_prod p fs Hp) as (f & Hf & Df).
  { replace (foldr (fun f z => z * phi f) 1 fs) with (val v * (7 ^ m - 1) - val w * (2 ^ m - 1)) by lia.
    apply Z.divide_sub_r; apply Z.divide_mul_r; assumption. }
  apply elem_of_list_In in Hf. destruct (ok_factor_sound k f p (H3 f Hf)) as [_ Hng]; [lia|assumption..|]. exact (Hng G).
Qed.

Lemma check_certs_sound f : forall m A B l, Forall limb A -> Forall limb B -> val A = 7 ^ phi m -> val B = 2 ^ phi m ->
  phi m + 2 * Z.of_nat f <= 10000 -> check_certs f m A B l = true ->
  forall c, c ∈ l -> phi (cert_k c) < 1024 -> forall p, prime p -> 46341 <= p -> ~ good (phi (cert_k c) * p).
Proof.
  induction f as [|f IH]; intros m A B l FA FB VA VB Hm H c Hc Hlt.
  { destruct l; [apply elem_of_nil in Hc; contradiction|discriminate H]. }
  destruct l as [|c0 l]; [apply elem_of_nil in Hc; contradiction|]. cbn [check_certs] in H. pose proof (pb m).
  assert (E1 : phi (m + 1)%uint63 = phi m + 1) by (rewrite p_add; change (phi 1%uint63) with 1; lia).
  assert (E2 : phi (m + 2)%uint63 = phi m + 2) by (rewrite p_add; change (phi 2%uint63) with 2; lia).
  destruct (mul1_val A 49%uint63 FA eq_refl 0%uint63 eq_refl) as [VA' FA'].
  destruct (mul1_val B 4%uint63 FB eq_refl 0%uint63 eq_refl) as [VB' FB'].
  assert (VA2 : val (mul1 A 49 0) = 7 ^ phi (m + 2)%uint63).
  { rewrite VA', VA, E2, Z.pow_add_r by lia. change (phi 0%uint63) with 0. change (phi 49%uint63) with 49. lia. }
  assert (VB2 : val (mul1 B 4 0) = 2 ^ phi (m + 2)%uint63).
  { rewrite VB', VB, E2, Z.pow_add_r by lia. change (phi 0%uint63) with 0. change (phi 4%uint63) with 4. lia. }
  destruct (PrimInt63.eqb (cert_k c0) (m + 1)) eqn:E.
  - rewrite p_eqb, E1 in E. apply Z.eqb_eq in E. apply andb_true_iff in H as [H1 H2].
    apply elem_of_cons in Hc as [->|Hc].
    + apply (check_cert_sound A B c0 (phi m)); try assumption; lia.
    + apply (IH (m + 2)%uint63 _ _ l FA' FB' VA2 VB2); [lia|exact H2|exact Hc|exact Hlt].
  - apply (IH (m + 2)%uint63 _ _ (c0 :: l) FA' FB' VA2 VB2); [lia|exact H|exact Hc|exact Hlt].
Qed.


Lemma certs_sound l : certs_ok l = true -> forall d p, has_cert (map cert_k l) d = true -> phi d < 1024 ->
  prime p -> 46341 <= p -> ~ good (phi d * p).
Proof.
  intros H d p Hd Hlt. unfold has_cert in Hd. apply existsb_exists in Hd as (k & Hk & E).
  rewrite p_eqb in E. apply Z.eqb_eq in E. apply in_map_iff in Hk as (c & Ek & Hc). subst k. rewrite <- E in *.
  unfold certs_ok in H. revert p. apply (check_certs_sound 512 2%uint63 [49%uint63] [4%uint63] l); try assumption; try reflexivity.
  - repeat constructor.
  - repeat constructor.
  - discriminate.
  - apply elem_of_list_In, Hc.
Qed.

Close Scope Z_scope.
