(** Wrapping arithmetic is the image of exact arithmetic under a ring homomorphism. *)
From Coq Require Import Eqdep_dec.
From Verif Require Import Prelude IntModel ArraySpec SegtreeSpec FenwickSpec LazySpec PartialOps WordModel WordSpec.

Lemma word_eq T (x y : word T) : wval x = wval y -> x = y.
Proof.
  destruct x as [x Hx], y as [y Hy]. unfold wval. cbn [proj1_sig]. intros ->. f_equal. apply UIP_dec, bool_dec.
Qed.

Lemma wrap_cong T x y : (x mod 2 ^ it_bits T = y mod 2 ^ it_bits T -> wrap T x = wrap T y)%Z.
Proof. unfold wrap. intros H. rewrite Zminus_mod, H, <- Zminus_mod. reflexivity. Qed.
Lemma wrap_mod T x : (0 < it_bits T -> wrap T x mod 2 ^ it_bits T = x mod 2 ^ it_bits T)%Z.
Proof. intros H. unfold wrap. rewrite Zplus_mod_idemp_l. f_equal. lia. Qed.

Section Word.
  Context (T : ity) (HT : (0 < it_bits T)%Z).
  Local Notation w := (word_of T HT).

  Lemma word_of_val x : wval (w x) = wrap T x.
  Proof. reflexivity. Qed.
  Lemma wval_in x : in_ty T (@wval T x).
  Proof. apply fits_in. exact (proj2_sig x). Qed.
  Lemma of_wval x : w (wval x) = x.
  Proof. apply word_eq. rewrite word_of_val. apply wrap_id; [exact HT|apply wval_in]. Qed.
  Lemma w_add x y : w (x + y) = wadd T HT (w x) (w y).
  Proof. apply word_eq. unfold wadd. rewrite !word_of_val. apply wrap_cong. rewrite Zplus_mod, <- (wrap_mod T x HT), <- (wrap_mod T y HT), <- Zplus_mod. reflexivity. Qed.
  Lemma w_mul x y : w (x * y) = wmul T HT (w x) (w y).
  Proof. apply word_eq. unfold wmul. rewrite !word_of_val. apply wrap_cong. rewrite Zmult_mod, <- (wrap_mod T x HT), <- (wrap_mod T y HT), <- Zmult_mod. reflexivity. Qed.
  Lemma w_sub x y : w (x - y) = wsub T HT (w x) (w y).
  Proof. apply word_eq. unfold wsub. rewrite !word_of_val. apply wrap_cong. rewrite Zminus_mod, <- (wrap_mod T x HT), <- (wrap_mod T y HT), <- Zminus_mod. reflexivity. Qed.
  Lemma w_onto (P : word T -> Prop) : (forall x, P (w x)) -> forall x, P x.
  Proof. intros H x. rewrite <- of_wval. apply H. Qed.

  Lemma wadd_laws : monoid_laws (w 0) (wadd T HT).
  Proof.
    split.
    - intros x y z. revert x; apply w_onto; intros x. revert y; apply w_onto; intros y. revert z; apply w_onto; intros z.
      rewrite <- !w_add. f_equal. lia.
    - apply w_onto. intros x. rewrite <- w_add. f_equal.
    - apply w_onto. intros x. rewrite <- w_add. f_equal. lia.
  Qed.
  Lemma wmul_laws : monoid_laws (w 1) (wmul T HT).
  Proof.
    split.
    - intros x y z. revert x; apply w_onto; intros x. revert y; apply w_onto; intros y. revert z; apply w_onto; intros z.
      rewrite <- !w_mul. f_equal. lia.
    - apply w_onto. intros x. rewrite <- w_mul. f_equal. lia.
    - apply w_onto. intros x. rewrite <- w_mul. f_equal. lia.
  Qed.
  Lemma wadd_comm x y : wadd T HT x y = wadd T HT y x.
  Proof. unfold wadd. f_equal. lia. Qed.
  Lemma wmul_comm x y : wmul T HT x y = wmul T HT y x.
  Proof. unfold wmul. f_equal. lia. Qed.
  Lemma wmul_add_l x y z : wmul T HT x (wadd T HT y z) = wadd T HT (wmul T HT x y) (wmul T HT x z).
  Proof.
    revert x; apply w_onto; intros x. revert y; apply w_onto; intros y. revert z; apply w_onto; intros z.
    rewrite <- !w_add, <- !w_mul, <- w_add. f_equal. lia.
  Qed.
  Lemma wmul_add_r x y z : wmul T HT (wadd T HT x y) z = wadd T HT (wmul T HT x z) (wmul T HT y z).
  Proof. rewrite wmul_comm, wmul_add_l, !(wmul_comm z). reflexivity. Qed.
  Lemma wmul_0_l x : wmul T HT (w 0) x = w 0.
  Proof. revert x; apply w_onto; intros x. rewrite <- w_mul. reflexivity. Qed.

  (** Where dev does not panic, both profiles agree. *)
  Lemma dev_add_or : or_panics (wadd T HT) (dev T HT Z.add).
  Proof. intros x y. unfold dev, wadd. destruct (fits _ _); auto. Qed.
  Lemma dev_mul_or : or_panics (wmul T HT) (dev T HT Z.mul).
  Proof. intros x y. unfold dev, wmul. destruct (fits _ _); auto. Qed.
  Lemma dev_sub_or : or_panics (wsub T HT) (dev T HT Z.sub).
  Proof. intros x y. unfold dev, wsub. destruct (fits _ _); auto. Qed.
  (** dev is the checked arithmetic of IntModel.v. *)
  Lemma dev_chk exact x y : fmap wval (dev T HT exact x y) = chk T (exact (wval x) (wval y)).
  Proof.
    unfold dev, chk, fits. destruct (_ && _) eqn:E; [|reflexivity]. cbn. f_equal. apply wrap_id; [exact HT|]. apply fits_in. exact E.
  Qed.
End Word.

(** ** Plain arrays under a homomorphism *)
Lemma slice_hom {A B} (h : A -> B) a l r : slice (map h a) l r = map h (slice a l r).
Proof. unfold slice. rewrite <- firstn_map, <- skipn_map. reflexivity. Qed.
Lemma mprod_hom {A B} (h : A -> B) e op e' op' : h e = e' -> (forall x y, h (op x y) = op' (h x) (h y)) ->
  forall l, mprod e' op' (map h l) = h (mprod e op l).
Proof. intros He Ho l. unfold mprod. induction l as [|x l IH]; cbn; [congruence|]. rewrite IH, Ho. reflexivity. Qed.
Lemma run_hom {St St' Op Op' Out Out'} (step : St -> Op -> res (St * Out)) (step' : St' -> Op' -> res (St' * Out'))
  (hs : St -> St') (ho : Op -> Op') (hout : Out -> Out') :
  (forall s o, step' (hs s) (ho o) = fmap (fun '(s, out) => (hs s, hout out)) (step s o)) ->
  forall ops s, run step' (hs s) (map ho ops) = fmap (fun '(s, outs) => (hs s, map hout outs)) (run step s ops).
Proof.
  intros H. induction ops as [|o ops IH]; intros s; cbn [run map]; [reflexivity|].
  rewrite H. destruct (step s o) as [[s1 out]| |]; cbn; [|reflexivity|reflexivity].
  rewrite IH. destruct (run step s1 ops) as [[s2 outs]| |]; reflexivity.
Qed.
Lemma run_hom_snd {St St' Op Op' Out Out'} (step : St -> Op -> res (St * Out)) (step' : St' -> Op' -> res (St' * Out'))
  (hs : St -> St') (ho : Op -> Op') (hout : Out -> Out') :
  (forall s o, step' (hs s) (ho o) = fmap (fun '(s, out) => (hs s, hout out)) (step s o)) ->
  forall ops s, fmap snd (run step' (hs s) (map ho ops)) = fmap (map hout) (fmap snd (run step s ops)).
Proof. intros H ops s. rewrite (run_hom step step' hs ho hout H). destruct (run step s ops) as [[s2 outs]| |]; reflexivity. Qed.

Lemma sg_hom {A B} (h : A -> B) e op e' op' : h e = e' -> (forall x y, h (op x y) = op' (h x) (h y)) ->
  forall a o, sg_spec_step e' op' (map h a) (sg_op_map h o) = fmap (fun '(a, out) => (map h a, sg_out_map h out)) (sg_spec_step e op a o).
Proof.
  intros He Ho a o. destruct o as [p x|p|l r|]; cbn [sg_op_map sg_spec_step].
  - rewrite map_length. destruct (p <? length a); [|reflexivity]. cbn. rewrite list_fmap_insert. reflexivity.
  - rewrite list_lookup_fmap. destruct (a !! p); reflexivity.
  - rewrite map_length. destruct (_ && _); [|reflexivity]. cbn. rewrite slice_hom, (mprod_hom h e op) by assumption. reflexivity.
  - cbn. rewrite (mprod_hom h e op) by assumption. reflexivity.
Qed.

Lemma fw_hom {A B} (h : A -> B) z add sub z' add' sub' : h z = z' -> (forall x y, h (add x y) = add' (h x) (h y)) -> (forall x y, h (sub x y) = sub' (h x) (h y)) ->
  forall a o, fw_spec_step z' add' sub' add' (map h a) (fw_op_map h o) = fmap (fun '(a, out) => (map h a, fw_out_map h out)) (fw_spec_step z add sub add a o).
Proof.
  intros He Ho Hs a o. destruct o as [p x|p|l r]; cbn [fw_op_map fw_spec_step].
  - rewrite list_lookup_fmap. destruct (a !! p) as [y|]; cbn; [|reflexivity]. rewrite <- Ho, list_fmap_insert. reflexivity.
  - rewrite map_length. destruct (_ <=? _); [|reflexivity]. cbn. rewrite slice_hom, (mprod_hom h z add) by assumption. reflexivity.
  - rewrite map_length. destruct (_ && _); [|reflexivity]. cbn. rewrite !slice_hom, !(mprod_hom h z add), <- Hs by assumption. reflexivity.
Qed.

Lemma lz_hom {A B F G} (h : A -> B) (hf : F -> G) e op mp e' op' mp' : h e = e' -> (forall x y, h (op x y) = op' (h x) (h y)) -> (forall f x, h (mp f x) = mp' (hf f) (h x)) ->
  forall a o, lz_spec_step e' op' mp' (map h a) (lz_op_map h hf o) = fmap (fun '(a, out) => (map h a, lz_out_map h out)) (lz_spec_step e op mp a o).
Proof.
  intros He Ho Hm a o. destruct o as [p x|p|l r| |p f|l r f|l g|l g]; cbn [lz_op_map lz_spec_step]; try reflexivity.
  - rewrite map_length. destruct (p <? length a); [|reflexivity]. cbn. rewrite list_fmap_insert. reflexivity.
  - rewrite list_lookup_fmap. destruct (a !! p); reflexivity.
  - rewrite map_length. destruct (_ && _); [|reflexivity]. cbn. rewrite slice_hom, (mprod_hom h e op) by assumption. reflexivity.
  - cbn. rewrite (mprod_hom h e op) by assumption. reflexivity.
  - rewrite list_lookup_fmap. destruct (a !! p) as [y|]; cbn; [|reflexivity]. rewrite <- Hm, list_fmap_insert. reflexivity.
  - rewrite map_length. destruct (_ && _); [|reflexivity]. cbn. do 2 f_equal. apply list_eq. intros i. unfold map_range.
    rewrite list_lookup_imap, !list_lookup_fmap, list_lookup_imap. destruct (a !! i) as [y|]; cbn; [|reflexivity]. destruct (_ && _); [rewrite Hm|]; reflexivity.
Qed.
