(** The calls of a lazy segment tree whose operation may panic, after any history of caught panics. *)
From Verif Require Import Prelude UtilModel UtilProof ArraySpec PartialOps SegtreeModel SegtreeProof SegtreeChkModel LazySpec LazyModel LazyProof LazyTop
  LazyChkModel Unwind LazyUnwindModel TreeUnwindSpec LazyUnwindSpec LazyUnwindGhost LazyUnwindProof.

Section Top.
  Context {S F : Type} (e : S) (op : S -> S -> S) (idm : F) (mapping : F -> S -> S) (comp : F -> F -> F).
  Context (L : monoid_laws e op) (ML : map_laws op idm mapping comp).
  Context (opc : S -> S -> res S) (O : or_panics op opc).
  Local Notation mapc := (fun f x => Ok (mapping f x)).
  Local Notation compc := (fun f g => Ok (comp f g)).
  Local Notation gmap := (gmap mapping).
  Local Notation gcomp := (gcomp comp).
  Local Notation gtree := (tree (list (list S)) (list F)).
  Local Notation Rel := (Rel e op).
  Local Notation GR log g A C := (R (@nil (list S)) app [idm] gmap log g A all C).
  Local Notation GL := (@glaws S).
  Local Notation GML := (gmaplaws op idm mapping comp ML).
  Local Notation GD := (@GD S F).
  Local Notation Mono := (@Mono S F).
  Local Notation wle := (@wle S).
  Local Notation sp := (some_prod e op).
  Local Notation garr := (garr e).
  Local Notation TInv := (TInv e op idm mapping).
  Local Notation CInv := (CInv e op idm mapping).
  Local Notation WP := (Pr (@nil (list S)) app).
  Implicit Types (s : tree S F) (g : gtree) (size k : nat) (cells : list (list S)) (t : lazytree S F).

  (** ** Facts about the shadow *)
  Lemma GR_children log g A C h k : GR log g A C -> node log (Datatypes.S h) k -> C (Datatypes.S h) k ->
    GD g k = GD g (2 * k) ++ GD g (2 * k + 1).
  Proof.
    intros HR Hk Ck. pose proof (node_left _ _ _ Hk) as Hl. pose proof (node_right _ _ _ Hk) as Hr.
    unfold LazyUnwindProof.GD. rewrite (R_good _ _ _ _ _ _ _ _ _ HR _ _ Hk Logic.I), (R_good _ _ _ _ _ _ _ _ _ HR _ _ Hl Logic.I), (R_good _ _ _ _ _ _ _ _ _ HR _ _ Hr Logic.I).
    pose proof (pow2_pos h). replace ((2 * k + 1 + 1) * 2 ^ h) with ((2 * k + 2) * 2 ^ h) by lia. rewrite <- (Pr_app _ _ GL) by nia.
    rewrite Nat.pow_succ_r'. replace (2 * k * 2 ^ h) with (k * (2 * 2 ^ h)) by lia. replace ((2 * k + 2) * 2 ^ h) with ((k + 1) * (2 * 2 ^ h)) by lia.
    apply Pr_ext. intros p Hp. rewrite <- Nat.pow_succ_r' in Hp. apply under in Hp. cbn [val]. rewrite Hp.
    apply (R_clean _ _ _ _ _ _ _ _ _ HR (Datatypes.S h)); [lia|exact Hk|exact Ck].
  Qed.

  Definition inner (log : nat) (C : nat -> nat -> Prop) (k : nat) : Prop := exists h, node log (Datatypes.S h) k /\ C (Datatypes.S h) k.
  Lemma GR_Mono log g A C : GR log g A C -> Mono (inner log C) g.
  Proof. intros HR k (h & Hk & Ck). rewrite (GR_children log g A C h k HR Hk Ck). apply wle_refl. Qed.
  Lemma inner_lt log C k : inner log C k -> 0 < k < 2 ^ log.
  Proof. intros (h & Hk & _). pose proof (node_lt _ _ _ Hk). split; [lia|]. apply (node_inner _ _ _ Hk). lia. Qed.

  Lemma GR_leaf log g cells C p : GR log g (garr log cells) C -> leaf log p -> (forall j, 0 < j <= log -> C j (p / 2 ^ j)) ->
    g.1 !! p = Some (garr log cells p) /\ GD g p = garr log cells p.
  Proof.
    intros HR Hp HC. pose proof (R_read _ _ _ _ log g _ all C 0 p HR (leaf_node0 _ _ Hp) Logic.I) as H.
    rewrite Nat.pow_0_r, !Nat.mul_1_r, (Pr_one _ _ GL) in H.
    assert (vget g.1 p = Ok (garr log cells p)) as Hv.
    { apply H. intros j x Hx [Hj ->]. rewrite Nat.sub_0_r. apply HC. split; [lia|apply Hx]. }
    apply vget_some in Hv. split; [exact Hv|]. unfold LazyUnwindProof.GD, D. rewrite Hv. reflexivity.
  Qed.
  Lemma garr_at log cells p c : cells !! p = Some c -> garr log cells (p + 2 ^ log) = [c].
  Proof. intros H. unfold LazyUnwindProof.garr. replace (p + 2 ^ log - 2 ^ log) with p by lia. rewrite H. reflexivity. Qed.

  Lemma WP_garr log cells l r : l <= r <= length cells -> WP (garr log cells) (2 ^ log + l) (2 ^ log + r) = slice cells l r.
  Proof.
    intros [H Hr]. induction H as [|r H IH].
    - rewrite Pr_nil, slice_nil by lia. reflexivity.
    - rewrite (Pr_app _ _ GL _ _ (2 ^ log + r)) by lia. rewrite IH by lia.
      replace (2 ^ log + Datatypes.S r) with (2 ^ log + r + 1) by lia. rewrite (Pr_one _ _ GL).
      rewrite <- (slice_app cells l r (Datatypes.S r)) by lia. f_equal. replace (Datatypes.S r) with (r + 1) by lia.
      destruct (lookup_lt_is_Some_2 cells r) as [c Ec]; [lia|]. rewrite (slice_single cells r c Ec).
      rewrite (Nat.add_comm (2 ^ log) r). apply garr_at. exact Ec.
  Qed.
  Lemma WP_garr_pad log cells m : length cells <= m -> WP (garr log cells) (2 ^ log) (2 ^ log + m) = cells ++ replicate (m - length cells) [e].
  Proof.
    intros H. induction H as [|m H IH].
    - replace (2 ^ log) with (2 ^ log + 0) at 1 by lia. rewrite WP_garr by lia. rewrite slice_full, Nat.sub_diag, app_nil_r. reflexivity.
    - rewrite (Pr_app _ _ GL _ _ (2 ^ log + m)) by lia. rewrite IH. replace (2 ^ log + Datatypes.S m) with (2 ^ log + m + 1) by lia.
      rewrite (Pr_one _ _ GL). replace (Datatypes.S m - length cells) with (Datatypes.S (m - length cells)) by lia.
      rewrite <- app_assoc. f_equal. rewrite replicate_S_end. f_equal. unfold LazyUnwindProof.garr.
      replace (2 ^ log + m - 2 ^ log) with m by lia. rewrite lookup_ge_None_2 by lia. reflexivity.
  Qed.
  Lemma sp_pad cells m v : sp (cells ++ replicate m [e]) v -> sp cells v.
  Proof.
    intros (ys & Hc & ->). unfold choice in Hc. apply Forall2_app_inv_l in Hc as (y1 & y2 & H1 & H2 & ->). exists y1. split; [exact H1|].
    rewrite (mprod_app _ _ L). assert (mprod e op y2 = e) as ->; [|apply (ml_idr _ _ L)].
    revert m H2. induction y2 as [|y y2 IH]; intros m H2; [reflexivity|]. destruct m as [|m]; inversion H2; subst.
    match goal with H : y ∈ [e] |- _ => apply elem_of_list_singleton in H; subst end.
    change (mprod e op (e :: y2)) with (op e (mprod e op y2)). rewrite (IH m) by assumption. apply (ml_idl _ _ L).
  Qed.

  Lemma read_T log s cells k : TInv log s cells -> k < 2 * 2 ^ log -> exists v, vget s.1 k = Ok v.
  Proof.
    intros (g & C & HR & HG) Hk. pose proof (R_d _ _ _ _ _ _ _ _ _ HG) as Hd. rewrite (re_d _ _ _ _ _ HR) in Hd.
    destruct (vget_lt s.1 k) as (v & E & _); [lia|]. eauto.
  Qed.
  Lemma push_T log s cells k : TInv log s cells -> 0 < k < 2 ^ log ->
    exists s', ltu_push idm mapc compc (2 ^ log) k s = Ok (s', Some tt) /\ TInv log s' cells.
  Proof.
    intros (g & C & HR & HG) Hk. destruct (node_exists log k) as [h Hn]; [lia|].
    destruct h as [|h]; [apply (node_inner log) in Hn; lia|].
    destruct (R_push _ _ _ _ _ GL GML log g _ C h k HG Hn) as (g' & E & HG').
    destruct (simT_push e op idm mapping comp L ML (2 ^ log) k s g g' HR E) as (s' & Es & HR').
    exists s'. split; [exact Es|]. eexists g', _. split; [exact HR'|exact HG'].
  Qed.
  Lemma push_path_T log s cells p : TInv log s cells -> leaf log p ->
    exists s' g, ltu_push_path idm mapc compc (2 ^ log) log p s = Ok (s', Some tt) /\ Rel (2 ^ log) s' g /\ GR log g (garr log cells) (on_path p).
  Proof.
    intros (g & C & HR & HG) Hp.
    destruct (push_path_ok _ _ _ _ _ GL GML log g _ C p HG Hp) as (g' & E & HG').
    destruct (simT_push_path e op idm mapping comp L ML (2 ^ log) log p s g g' HR E) as (s' & Es & HR').
    exists s', g'. auto.
  Qed.

  (** ** Writing a leaf and updating its ancestors *)
  Lemma write_T log s g cells p v c' : p < length cells -> length cells <= 2 ^ log -> Rel (2 ^ log) s g -> GR log g (garr log cells) (on_path (p + 2 ^ log)) ->
    (exists tl, c' = v :: tl) ->
    exists (s1 : list S) s' o, vset s.1 (p + 2 ^ log) v = Ok s1 /\ ltu_update_path opc log (p + 2 ^ log) (s1, s.2) = Ok (s', o) /\
      (o = Some tt -> TInv log s' (<[p := c']> cells)) /\
      (forall c, cells !! p = Some c -> c ⊆ c' -> TInv log s' (<[p := c']> cells)).
  Proof.
    intros Hp Hn HR HG [tl Ec]. set (P := p + 2 ^ log) in *.
    assert (leaf log P) as HP by (unfold leaf, P; lia).
    destruct (R_set_leaf _ _ _ _ GL log g _ _ _ P [c'] HG HP) as [_ HG1]; [intros j Hj; split; [lia|reflexivity]|].
    destruct (update_path_ok _ _ [idm] gmap GL log (<[P := [c']]> g.1, g.2) (garr log (<[p := c']> cells)) P HP) as (g' & E & HG').
    { eapply R_mono; [exact HG1| |intros ? ? _ ?; split; [exact Logic.I|assumption]|auto].
      intros q Hq. unfold LazyUnwindProof.garr. unfold leaf in Hq. rewrite (default_insert [e] cells p c' (q - 2 ^ log)) by lia.
      destruct (decide (q = P)), (decide (q - 2 ^ log = p)); try reflexivity; unfold P in *; exfalso; lia. }
    pose proof (re_d _ _ _ _ _ HR) as Hd. pose proof (R_d _ _ _ _ _ _ _ _ _ HG) as Hgd.
    assert (P < 2 * 2 ^ log) by (unfold P; lia).
    assert (Rel (2 ^ log) (<[P := v]> s.1, s.2) (<[P := [c']]> g.1, g.2)) as HR1.
    { apply Rel_write; [exact HR| |intros _; exists tl; rewrite Ec; reflexivity].
      intros _. split; [discriminate|]. apply some_prod_one; [exact L|]. rewrite Ec. left. }
    set (ks := flat_map (fun i => [P / 2 ^ i]) (range_incl 1 log)).
    assert (Forall (fun k => inner log (on_path P) k /\ 0 < k < 2 ^ log) ks) as Hks.
    { apply Forall_forall. intros k Hk. apply elem_of_list_In, in_flat_map in Hk as (i & Hi & [<-|[]]). unfold range_incl in Hi. apply in_seq in Hi.
      assert (inner log (on_path P) (P / 2 ^ i)) as Hin.
      { exists (i - 1). replace (Datatypes.S (i - 1)) with i by lia. split; [apply leaf_node; [exact HP|lia]|]. split; [lia|reflexivity]. }
      split; [exact Hin|]. apply (inner_lt _ _ _ Hin). }
    unfold lt_update_path in E. rewrite (gups_for _ _ (fun i => [P / 2 ^ i])) in E by (intros; apply gups_one). fold ks in E.
    destruct (sim_ups e op L opc O (inner log (on_path P)) (2 ^ log) ks Hks _ _ g' HR1 E) as (s' & o & Es & H1 & H2).
    exists (<[P := v]> s.1), s', o. split; [apply vset_ok; lia|]. split.
    { unfold ltu_update_path. rewrite (ups_for opc _ (fun i => ltu_update opc (P / 2 ^ i)) (fun i => [P / 2 ^ i])) by (intros; apply ups_one). exact Es. }
    split; [intros Ho; exists g', (on_path P); auto|].
    intros c Hc Hsub. exists g', (on_path P). split; [|exact HG']. apply H2.
    pose proof (GR_Mono log g _ _ HG) as HM. intros k Hk. pose proof (inner_lt _ _ _ Hk) as Hkl. specialize (HM k Hk).
    assert (forall x, wle (GD g x) (GD (<[P := [c']]> g.1, g.2) x)) as Hle.
    { intros x. unfold LazyUnwindProof.GD at 2. unfold D. cbn [fst]. rewrite default_insert by lia. destruct (decide (x = P)) as [->|]; [|apply wle_refl].
      destruct (GR_leaf log g cells (on_path P) P HG HP) as [_ ->]; [intros j Hj; split; [lia|reflexivity]|].
      unfold P. rewrite (garr_at log cells p c Hc). repeat constructor. exact Hsub. }
    assert (GD (<[P := [c']]> g.1, g.2) k = GD g k) as ->.
    { unfold LazyUnwindProof.GD, D. cbn [fst]. rewrite default_insert by lia. rewrite decide_False by (unfold P; lia). reflexivity. }
    eapply wle_trans; [exact HM|]. apply wle_app; apply Hle.
  Qed.
  Lemma leaf_T log s g cells p c : cells !! p = Some c -> length cells <= 2 ^ log -> Rel (2 ^ log) s g -> GR log g (garr log cells) (on_path (p + 2 ^ log)) ->
    exists v tl, vget s.1 (p + 2 ^ log) = Ok v /\ c = v :: tl.
  Proof.
    intros Hc Hn HR HG. pose proof (lookup_lt_Some _ _ _ Hc) as Hp.
    destruct (GR_leaf log g cells _ (p + 2 ^ log) HG) as [Hg _]; [unfold leaf; lia|intros j Hj; split; [lia|reflexivity]|].
    rewrite (garr_at log cells p c Hc) in Hg.
    destruct (Rel_read e op _ s g (p + 2 ^ log) [c] HR) as (v & Ev & Ev' & _); [apply vget_ok_iff; exact Hg|].
    destruct (re_leaf _ _ _ _ _ HR (p + 2 ^ log) v [c]) as [tl Et]; [lia|exact Ev'|exact Hg|]. exists v, tl. split; [exact Ev|]. congruence.
  Qed.

  (** ** apply_range *)
  Lemma all_apply_GD size g k G g' : lt_all_apply gmap gcomp size g k G = Ok g' ->
    forall x, GD g' x = if decide (x = k) then gmap G (GD g k) else GD g x.
  Proof.
    intros E x. destruct g as [gd glz]. unfold lt_all_apply in E.
    destruct (vget gd k) as [w| |] eqn:Ew; cbn [mbind res_bind] in E; [|discriminate|discriminate]. apply vget_some in Ew.
    destruct (vset gd k (gmap G w)) as [gd'| |] eqn:Es; cbn [mbind res_bind] in E; [|discriminate|discriminate]. apply vset_inv in Es as [Hk ->].
    assert (g'.1 = <[k := gmap G w]> gd) as H.
    { destruct (k <? size); [|injection E as <-; reflexivity].
      destruct (vget glz k); cbn [mbind res_bind] in E; [|discriminate|discriminate]. destruct (vset glz k _); cbn [mbind res_bind] in E; [|discriminate|discriminate].
      injection E as <-. reflexivity. }
    unfold LazyUnwindProof.GD, D. rewrite H. cbn [fst]. rewrite default_insert by exact Hk. rewrite Ew. reflexivity.
  Qed.
  Lemma all_apply_Mono size (B : nat -> Prop) f g k g' : ~ B k -> Mono B g -> lt_all_apply gmap gcomp size g k [f; idm] = Ok g' -> Mono B g'.
  Proof.
    intros HB HM E x Hx. pose proof (all_apply_GD size g k _ g' E) as H.
    assert (forall y, wle (GD g y) (GD g' y)) as Hle.
    { intros y. rewrite H. destruct (decide (y = k)) as [->|]; [apply (gmap_wle op idm mapping comp ML)|apply wle_refl]. }
    rewrite (H x). rewrite decide_False by (intros ->; contradiction).
    eapply wle_trans; [apply HM; exact Hx|]. apply wle_app; apply Hle.
  Qed.
  Lemma apply_loop_Mono log l r f fuel : 2 ^ log <= l <= 2 * 2 ^ log -> 2 ^ log <= r <= 2 * 2 ^ log -> forall l' r' g g',
    (l' < r' -> exists h, h <= log /\ l <= l' * 2 ^ h /\ r' * 2 ^ h <= r) -> Mono (inner log (bnd l r)) g ->
    rloop fuel (lt_apply_step gmap gcomp (2 ^ log) [f; idm]) (l', r', g) = Ok g' -> Mono (inner log (bnd l r)) g'.
  Proof.
    intros Hl Hr. induction fuel as [|fuel IH]; intros l' r' g g' Hh HM E; [discriminate|]. cbn [rloop] in E.
    set (rec := rloop fuel (lt_apply_step gmap gcomp (2 ^ log) [f; idm])) in *. unfold lt_apply_step in E.
    destruct (Nat.ltb_spec l' r') as [Hlt|]; [|cbn in E; injection E as <-; exact HM].
    destruct (Hh Hlt) as (h & Hhl & H1 & H2). clear Hh. pose proof (pow2_pos h) as Hph.
    destruct (range_node log h l' r' Hhl) as [N1 N2]; [lia|exact Hlt|lia|].
    assert (forall k, node log h k -> l <= k * 2 ^ h -> (k + 1) * 2 ^ h <= r -> ~ inner log (bnd l r) k) as Hnot.
    { intros k N K1 K2 (j & Hj & Hb). apply (bnd_not_left log l r h k Hl Hr N K1 K2). eauto. }
    assert (exists l1 g1, (if Nat.odd l' then s ← lt_all_apply gmap gcomp (2 ^ log) g l' [f; idm]; Ok (l' + 1, s) else Ok (l', g)) = Ok (l1, g1) /\
      Mono (inner log (bnd l r)) g1 /\ l' <= 2 * (l1 / 2)) as (l1 & g1 & El & HM1 & Hl1).
    { destruct (Nat.odd l') eqn:Ho.
      - destruct (lt_all_apply gmap gcomp (2 ^ log) g l' [f; idm]) as [g1| |] eqn:E1; [|cbn in E; discriminate|cbn in E; discriminate].
        exists (l' + 1), g1. split; [reflexivity|]. split; [|apply Nat.odd_spec in Ho as [q ->]; replace (2 * q + 1 + 1) with ((q + 1) * 2) by lia; rewrite Nat.div_mul; lia].
        eapply all_apply_Mono; [|exact HM|exact E1]. apply Hnot; [exact N1|exact H1|nia].
      - exists l', g. split; [reflexivity|]. split; [exact HM|]. rewrite <- Nat.negb_even in Ho. apply negb_false_iff, Nat.even_spec in Ho as [q ->].
        rewrite (Nat.mul_comm 2 q), Nat.div_mul; lia. }
    rewrite El in E. cbn [mbind res_bind] in E.
    assert (exists r1 g2, (if Nat.odd r' then r ← nsub r' 1; s ← lt_all_apply gmap gcomp (2 ^ log) g1 r [f; idm]; Ok (r, s) else Ok (r', g1)) = Ok (r1, g2) /\
      Mono (inner log (bnd l r)) g2 /\ 2 * (r1 / 2) <= r') as (r1 & g2 & Er & HM2 & Hr1).
    { destruct (Nat.odd r') eqn:Ho.
      - rewrite nsub_ok in * by lia. cbn [mbind res_bind] in *.
        destruct (lt_all_apply gmap gcomp (2 ^ log) g1 (r' - 1) [f; idm]) as [g2| |] eqn:E1; [|cbn in E; discriminate|cbn in E; discriminate].
        exists (r' - 1), g2. split; [reflexivity|]. split; [|pose proof (Nat.mul_div_le (r' - 1) 2); lia].
        eapply all_apply_Mono; [|exact HM1|exact E1]. apply Hnot; [exact N2|nia|replace (r' - 1 + 1) with r' by lia; exact H2].
      - exists r', g1. split; [reflexivity|]. split; [exact HM1|]. apply Nat.mul_div_le. lia. }
    rewrite Er in E. cbn [mbind res_bind] in E.
    apply (IH (l1 / 2) (r1 / 2) g2 g'); [|exact HM2|exact E].
    intros Hlt2. exists (Datatypes.S h). rewrite Nat.pow_succ_r'. split; [|split; nia].
    apply (Nat.pow_le_mono_r_iff 2); [lia|]. rewrite Nat.pow_succ_r'. nia.
  Qed.

  Lemma gmap1_cells f tl (cells : list (list S)) log l r p : l <= r <= length cells -> leaf log p ->
    garr log (map_range (fun c => gmapc mapping (f :: tl) c) l r cells) p =
    if decide (l + 2 ^ log <= p < r + 2 ^ log) then gmap (f :: tl) (garr log cells p) else garr log cells p.
  Proof.
    intros Hlr Hp. unfold leaf in Hp. unfold LazyUnwindProof.garr, map_range. rewrite list_lookup_imap.
    destruct (cells !! (p - 2 ^ log)) as [c|] eqn:Ec; cbn.
    - destruct (Nat.leb_spec l (p - 2 ^ log)), (Nat.ltb_spec (p - 2 ^ log) r); cbn; destruct (decide _); try reflexivity; exfalso; lia.
    - apply lookup_ge_None_1 in Ec. destruct (decide _); [exfalso; lia|reflexivity].
  Qed.

  Lemma apply_range_T log s g cells l r f tl : l < r <= length cells -> length cells <= 2 ^ log -> Rel (2 ^ log) s g ->
    GR log g (garr log cells) (bnd (l + 2 ^ log) (r + 2 ^ log)) ->
    exists s' o, (uloop (r + 2 ^ log + 1) (ltu_apply_step mapc compc (2 ^ log) f) (l + 2 ^ log, r + 2 ^ log) ;;~
       ufor (range_incl 1 log) (fun i _ => ltu_update_bounds opc (l + 2 ^ log) (r + 2 ^ log) i) tt) s = Ok (s', o) /\
      (o = Some tt -> TInv log s' (map_range (gmapc mapping (f :: tl)) l r cells)) /\
      (tl = [idm] -> TInv log s' (map_range (gmapc mapping (f :: tl)) l r cells)).
  Proof.
    intros Hlr Hn HR HG. set (P := l + 2 ^ log) in *. set (Q := r + 2 ^ log) in *. pose proof (pow2_pos log) as Hsz.
    destruct (apply_loop_ok _ _ _ _ _ GL GML log g _ P Q (f :: tl) HG) as (g1 & E1 & HG1); [unfold P; lia|unfold P, Q; lia|].
    destruct (simT_apply_loop e op idm mapping comp L ML (2 ^ log) f tl (Q + 1) P Q s g g1 HR E1) as (s1 & Es1 & HR1).
    destruct (update_bounds_ok _ _ [idm] gmap GL log g1 (garr log (map_range (gmapc mapping (f :: tl)) l r cells)) P Q) as (g2 & E2 & HG2).
    { eapply R_mono; [exact HG1| |auto|auto]. intros p Hp. apply gmap1_cells; [lia|exact Hp]. }
    { unfold P. lia. }
    { unfold Q. lia. }
    set (ks := flat_map (bnodes P Q) (range_incl 1 log)).
    assert (Forall (fun k => inner log (bnd P Q) k /\ 0 < k < 2 ^ log) ks) as Hks.
    { apply Forall_forall. intros k Hk. apply elem_of_list_In, in_flat_map in Hk as (i & Hi & Hk). unfold range_incl in Hi. apply in_seq in Hi.
      assert (inner log (bnd P Q) k) as Hin.
      { exists (i - 1). replace (Datatypes.S (i - 1)) with i by lia. unfold bnodes in Hk. apply in_app_or in Hk as [Hk|Hk].
        - destruct (straddled P i) eqn:Hs; [|destruct Hk]. destruct Hk as [<-|[]]. apply straddled_true in Hs.
          split; [eapply straddles_node; [exact Hs|lia|unfold P; lia]|left; exact Hs].
        - destruct (straddled Q i) eqn:Hs; [|destruct Hk]. destruct Hk as [<-|[]]. apply straddled_true in Hs.
          rewrite (straddles_pred _ _ Hs). split; [eapply straddles_node; [exact Hs|lia|unfold Q; lia]|right; exact Hs]. }
      split; [exact Hin|]. apply (inner_lt _ _ _ Hin). }
    rewrite (gups_for _ _ (bnodes P Q)) in E2 by (intros; apply gups_bounds; unfold Q; lia). fold ks in E2.
    destruct (sim_ups e op L opc O (inner log (bnd P Q)) (2 ^ log) ks Hks _ _ g2 HR1 E2) as (s' & o & Es & H1 & H2).
    exists s', o. split.
    { rewrite (ubind_ok _ _ _ _ _ Es1). rewrite (ups_for opc _ (ltu_update_bounds opc P Q) (bnodes P Q)) by (intros; apply ups_bounds; unfold Q; lia). exact Es. }
    split; [intros Ho; exists g2, (bnd P Q); auto|].
    intros ->. exists g2, (bnd P Q). split; [|exact HG2]. apply H2.
    apply (apply_loop_Mono log P Q f (Q + 1)) with (l' := P) (r' := Q) (g := g); [unfold P; lia|unfold Q; lia| | |exact E1].
    - intros _. exists 0. rewrite Nat.pow_0_r, !Nat.mul_1_r. lia.
    - apply GR_Mono with (A := garr log cells). exact HG.
  Qed.
End Top.
