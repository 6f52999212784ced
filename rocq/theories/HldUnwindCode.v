(** Nobody catching the panics, the HLD with the memory left behind is the checked one. *)
From Verif Require Import Prelude UtilModel ArraySpec LazySpec LazyModel LazyChkModel HldSpec HldModel HldChkModel Unwind LazyUnwindModel LazyUnwindCode HldUnwindModel.

Section Code.
  Context {S F : Type} (e : S) (opc : S -> S -> res S) (idm : F) (mapc : F -> S -> res S) (compc : F -> F -> res F).

  Lemma strip_on_data {A} (m : hl -> uw (lazytree S F) A) x :
    strip (on_data m x) = ('(t, a) ← strip (m (hd_tree x) (hd_data x)); Ok (Hld t (hd_tree x), a)).
  Proof. unfold on_data, strip. destruct (m (hd_tree x) (hd_data x)) as [[s [a|]]| |]; reflexivity. Qed.
  Lemma strip_pure {X A B} (r : res A) (k : A -> uw X B) s : strip ((y <~ uread (fun _ => r) ;~ k y) s) = (y ← r; strip (k y s)).
  Proof. rewrite strip_bind, strip_read. destruct r; reflexivity. Qed.

  Lemma tree_step {A} (m : uw (lazytree S F) A) (f : A -> lz_out S) (r : res (lazytree S F * lz_out S)) t :
    strip ((y <~ m ;~ uret (f y)) t) = r -> (forall a b, f a = f b -> a = b) ->
    forall (q : res (lazytree S F * A)), r = ('(t, y) ← q; Ok (t, f y)) -> strip (m t) = q.
  Proof.
    intros H Hf q Hq. rewrite strip_bind in H. rewrite Hq in H. destruct (strip (m t)) as [[t1 a]| |], q as [[t2 b]| |]; cbn in H; try discriminate; try reflexivity.
    injection H as -> E. apply Hf in E as ->. reflexivity.
  Qed.
  Lemma strip_apply_range l r f t : strip (ltu_apply_range opc idm mapc compc l r f t) = (t ← ltc_apply_range opc idm mapc compc t l r f; Ok (t, tt)).
  Proof.
    apply (tree_step _ (fun _ => LzUnit) _ t (step_strip e opc idm mapc compc t (LzApplyRange l r f))); [intros [] []; reflexivity|].
    cbn [ltc_step]. destruct (ltc_apply_range _ _ _ _ _ _ _ _); reflexivity.
  Qed.
  Lemma strip_prod l r t : strip (ltu_prod e opc idm mapc compc l r t) = ltc_prod e opc idm mapc compc t l r.
  Proof.
    apply (tree_step _ LzVal _ t (step_strip e opc idm mapc compc t (LzProd l r))); [congruence|]. cbn [ltc_step]. destruct (ltc_prod _ _ _ _ _ _ _ _) as [[? ?]| |]; reflexivity.
  Qed.
  Lemma strip_get p t : strip (ltu_get idm mapc compc p t) = ltc_get idm mapc compc t p.
  Proof.
    apply (tree_step _ LzVal _ t (step_strip e opc idm mapc compc t (LzGet p))); [congruence|]. cbn [ltc_step]. destruct (ltc_get _ _ _ _ _) as [[? ?]| |]; reflexivity.
  Qed.
  Lemma strip_set p x t : strip (ltu_set opc idm mapc compc p x t) = (t ← ltc_set opc idm mapc compc t p x; Ok (t, tt)).
  Proof.
    apply (tree_step _ (fun _ => LzUnit) _ t (step_strip e opc idm mapc compc t (LzSet p x))); [intros [] []; reflexivity|].
    cbn [ltc_step]. destruct (ltc_set _ _ _ _ _ _ _); reflexivity.
  Qed.

  Lemma strip_apply_path_step h f b t :
    apply_pathc_step opc idm mapc compc h f (b.1, b.2, t) =
    ('(t, r) ← strip (apply_pathu_step opc idm mapc compc h f b t); Ok (match r with inl b => inl (b.1, b.2, t) | inr b => inr (b.1, b.2, t) end)).
  Proof.
    destruct b as [u v]. unfold apply_pathc_step, apply_pathu_step. cbn [fst snd]. rewrite strip_pure. destruct (climb h u v) as [[[u1 v1]|]| |]; cbn [mbind res_bind]; [|reflexivity|reflexivity|reflexivity].
    rewrite strip_pure. destruct (vget (h_head h) u1) as [hu| |]; cbn [mbind res_bind]; [|reflexivity|reflexivity].
    rewrite strip_pure. destruct (vget (h_pos h) hu) as [l| |]; cbn [mbind res_bind]; [|reflexivity|reflexivity].
    rewrite strip_pure. destruct (vget (h_pos h) u1) as [r| |]; cbn [mbind res_bind]; [|reflexivity|reflexivity].
    rewrite strip_bind, strip_apply_range. destruct (ltc_apply_range _ _ _ _ _ _ _ _) as [t1| |]; cbn [mbind res_bind]; [|reflexivity|reflexivity].
    rewrite strip_pure. destruct (vget (h_parent h) hu) as [p| |]; reflexivity.
  Qed.
  Lemma strip_path_prod_step h b t :
    path_prodc_step e opc idm mapc compc h (b.1.1, b.1.2, t, b.2) =
    ('(t, r) ← strip (path_produ_step e opc idm mapc compc h b t); Ok (match r with inl b => inl (b.1.1, b.1.2, t, b.2) | inr b => inr (b.1.1, b.1.2, t, b.2) end)).
  Proof.
    destruct b as [[u v] acc]. unfold path_prodc_step, path_produ_step. cbn [fst snd]. rewrite strip_pure. destruct (climb h u v) as [[[u1 v1]|]| |]; cbn [mbind res_bind]; [|reflexivity|reflexivity|reflexivity].
    rewrite strip_pure. destruct (vget (h_head h) u1) as [hu| |]; cbn [mbind res_bind]; [|reflexivity|reflexivity].
    rewrite strip_pure. destruct (vget (h_pos h) hu) as [l| |]; cbn [mbind res_bind]; [|reflexivity|reflexivity].
    rewrite strip_pure. destruct (vget (h_pos h) u1) as [r| |]; cbn [mbind res_bind]; [|reflexivity|reflexivity].
    rewrite strip_bind, strip_prod. destruct (ltc_prod _ _ _ _ _ _ _ _) as [[t1 z]| |]; cbn [mbind res_bind]; [|reflexivity|reflexivity].
    rewrite strip_pure. destruct (opc acc z) as [acc1| |]; cbn [mbind res_bind]; [|reflexivity|reflexivity].
    rewrite strip_pure. destruct (vget (h_parent h) hu) as [p| |]; reflexivity.
  Qed.

  Lemma hld_strip o x : strip (hldu_step e opc idm mapc compc o x) = hldc_step e opc idm mapc compc x o.
  Proof.
    destruct o as [u v f|u v|u f|u|u|u y|o]; cbn [hldu_step hldc_step]; rewrite strip_bind.
    - unfold hldu_apply_path, hldc_apply_path. rewrite strip_on_data, strip_bind. unfold path_fuel.
      pose proof (strip_loop (fun t b => (b.1, b.2, t)) (fun t b => (b.1, b.2, t)) (apply_pathu_step opc idm mapc compc (hd_tree x) f)
        (apply_pathc_step opc idm mapc compc (hd_tree x) f) (strip_apply_path_step (hd_tree x) f) (2 * length (h_pos (hd_tree x)) + 1) (u, v) (hd_data x)) as H.
      cbn [fst snd] in H. rewrite H. clear H.
      destruct (strip (uloop _ _ _ _)) as [[t [u1 v1]]| |]; cbn [mbind res_bind fst snd]; [|reflexivity|reflexivity].
      rewrite strip_pure. destruct (by_pos (hd_tree x) u1 v1) as [[a b]| |]; cbn [mbind res_bind fst snd]; [|reflexivity|reflexivity].
      rewrite strip_pure. destruct (vget (h_pos (hd_tree x)) a) as [l| |]; cbn [mbind res_bind]; [|reflexivity|reflexivity].
      rewrite strip_pure. destruct (vget (h_pos (hd_tree x)) b) as [r| |]; cbn [mbind res_bind]; [|reflexivity|reflexivity].
      rewrite strip_apply_range. destruct (ltc_apply_range _ _ _ _ _ _ _ _) as [t1| |]; reflexivity.
    - unfold hldu_path_prod, hldc_path_prod. rewrite strip_on_data, strip_bind. unfold path_fuel.
      pose proof (strip_loop (fun t b => (b.1.1, b.1.2, t, b.2)) (fun t b => (b.1.1, b.1.2, t, b.2)) (path_produ_step e opc idm mapc compc (hd_tree x))
        (path_prodc_step e opc idm mapc compc (hd_tree x)) (strip_path_prod_step (hd_tree x)) (2 * length (h_pos (hd_tree x)) + 1) (u, v, e) (hd_data x)) as H.
      cbn [fst snd] in H. rewrite H. clear H.
      destruct (strip (uloop _ _ _ _)) as [[t [[u1 v1] acc]]| |]; cbn [mbind res_bind fst snd]; [|reflexivity|reflexivity].
      rewrite strip_pure. destruct (by_pos (hd_tree x) u1 v1) as [[a b]| |]; cbn [mbind res_bind fst snd]; [|reflexivity|reflexivity].
      rewrite strip_pure. destruct (vget (h_pos (hd_tree x)) a) as [l| |]; cbn [mbind res_bind]; [|reflexivity|reflexivity].
      rewrite strip_pure. destruct (vget (h_pos (hd_tree x)) b) as [r| |]; cbn [mbind res_bind]; [|reflexivity|reflexivity].
      rewrite strip_bind, strip_prod. destruct (ltc_prod _ _ _ _ _ _ _ _) as [[t1 z]| |]; cbn [mbind res_bind]; [|reflexivity|reflexivity].
      rewrite strip_read. destruct (opc acc z); reflexivity.
    - unfold hldu_apply_subtree, hldc_apply_subtree. rewrite strip_on_data, strip_pure. destruct (vget (h_pos (hd_tree x)) u) as [l| |]; cbn [mbind res_bind]; [|reflexivity|reflexivity].
      rewrite strip_pure. destruct (vget (h_posr (hd_tree x)) u) as [r| |]; cbn [mbind res_bind]; [|reflexivity|reflexivity].
      rewrite strip_apply_range. destruct (ltc_apply_range _ _ _ _ _ _ _ _) as [t1| |]; reflexivity.
    - unfold hldu_subtree_prod, hldc_subtree_prod. rewrite strip_on_data, strip_pure. destruct (vget (h_pos (hd_tree x)) u) as [l| |]; cbn [mbind res_bind]; [|reflexivity|reflexivity].
      rewrite strip_pure. destruct (vget (h_posr (hd_tree x)) u) as [r| |]; cbn [mbind res_bind]; [|reflexivity|reflexivity].
      rewrite strip_prod. destruct (ltc_prod _ _ _ _ _ _ _ _) as [[t1 z]| |]; reflexivity.
    - unfold hldu_get, hldc_get. rewrite strip_on_data, strip_pure. destruct (vget (h_pos (hd_tree x)) u) as [l| |]; cbn [mbind res_bind]; [|reflexivity|reflexivity].
      rewrite strip_get. destruct (ltc_get _ _ _ _ _) as [[t1 z]| |]; reflexivity.
    - unfold hldu_set, hldc_set. rewrite strip_on_data, strip_pure. destruct (vget (h_pos (hd_tree x)) u) as [l| |]; cbn [mbind res_bind]; [|reflexivity|reflexivity].
      rewrite strip_set. destruct (ltc_set _ _ _ _ _ _ _) as [t1| |]; reflexivity.
    - rewrite strip_on_data, (step_strip e opc idm mapc compc (hd_data x) o). destruct (ltc_step _ _ _ _ _ _ _) as [[t1 y]| |]; reflexivity.
  Qed.
End Code.
