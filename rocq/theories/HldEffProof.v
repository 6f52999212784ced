(** HLD over functions with side effects: same results, and a budget for every call. *)
From stdpp Require Import relations.
From Verif Require Import Prelude Eff UtilModel ArraySpec LazySpec LazyModel LazyChkModel LazyEffModel EffSpec LazyEffProof TreeSpec TreeProof HldSpec HldModel HldTree HldProof HldOps
  HldChkModel HldEffSpec HldEffModel.

(** with_init_value moves the values, the array keeps its length. *)
Lemma moved_length {S} (h : hl) (v : list S) xs : forall a a', rfor xs (fun i a => p ← vget (h_pos h) i; x ← vget v i; vset a p x) a = Ok a' -> length a' = length a.
Proof.
  induction xs as [|i xs IH]; intros a a' E; cbn [rfor] in E; [injection E as <-; reflexivity|]. apply rbind_ok_inv in E as (b & Eb & E). rewrite (IH b a' E).
  apply rbind_ok_inv in Eb as (p & _ & Eb). apply rbind_ok_inv in Eb as (x & _ & Eb). unfold vset in Eb. case_decide; [|discriminate]. injection Eb as <-. apply insert_length.
Qed.

Section Hld.
  Context {W S F : Type} (R : relation W) (e : S) (opE : S -> S -> eff W S) (opc : S -> S -> res S) (idm : F).
  Context (mappingE : F -> S -> eff W S) (mappingc : F -> S -> res S) (compE : F -> F -> eff W F) (compc : F -> F -> res F).
  Context (A : forall a b, spends R 1 (fun _ => 0) (opE a b) (opc a b)).
  Context (AM : forall f x, spends R 1 (fun _ => 0) (mappingE f x) (mappingc f x)).
  Context (AC : forall f g, spends R 1 (fun _ => 0) (compE f g) (compc f g)).
  Notation spends := (spends R).

  Lemma hnew_spends g root : spends (2 * length g) (fun _ => 0) (hlde_new e opE idm g root) (hldc_new e opc idm g root).
  Proof.
    apply spends_assert. intros _. apply (spends_part_bind R (2 * length g) _ 0); [|lia|intros t _].
    - eapply spends_weak; [apply lfrom_spends; eassumption| |auto]. rewrite replicate_length. lia.
    - apply spends_lift_bind. intros h _. apply spends_ret. lia.
  Qed.
  Lemma hinit_spends g root v : spends (4 * length g) (fun _ => 0) (hlde_with_init e opE idm g root v) (hldc_with_init e opc idm g root v).
  Proof.
    apply spends_assert. intros E. apply Nat.eqb_eq in E. apply (spends_part_bind R (2 * length g) _ (2 * length g)); [apply hnew_spends|lia|intros h _].
    apply spends_lift_bind. intros a Ea. assert (length a = length v) as Hl.
    { exact (moved_length _ _ _ _ _ Ea). }
    apply (spends_part_bind R (2 * length v) _ 0); [|lia|intros; apply spends_ret; lia].
    eapply spends_weak; [apply lfrom_spends; eassumption|lia|auto].
  Qed.

  Context (g : list (list nat)) (root : nat) (par dep : nat -> nat) (Ht : rtree g root par dep).
  Context (h : hl) (hv : nat -> option nat) (pos posr : nat -> nat) (Hd : decomp g root par dep h hv pos posr).
  Notation n := (length g).
  Notation L := (Nat.log2_up n).
  Notation head := (headf par dep hv).
  Notation light := (light par dep hv).

  Lemma range_shape t l r f t' : lshape n t -> ltc_apply_range opc idm mappingc compc t l r f = Ok t' -> lshape n t'.
  Proof. intros H E. apply (lstep_shape e opc idm mappingc compc n t (LzApplyRange l r f) t' LzUnit H). cbn [ltc_step]. rewrite E. reflexivity. Qed.
  Lemma prod_shape t l r t' z : lshape n t -> ltc_prod e opc idm mappingc compc t l r = Ok (t', z) -> lshape n t'.
  Proof. intros H E. apply (lstep_shape e opc idm mappingc compc n t (LzProd l r) t' (LzVal z) H). cbn [ltc_step]. rewrite E. reflexivity. Qed.
  Lemma range_budget t l r f : lshape n t -> spends (14 * L + 4) (fun _ => 0) (lte_apply_range opE idm mappingE compE t l r f) (ltc_apply_range opc idm mappingc compc t l r f).
  Proof. intros (H1 & H2 & H3 & H4). apply (apply_range_spends R opE opc idm mappingE mappingc compE compc A AM AC L); lia. Qed.
  Lemma prod_budget t l r : lshape n t -> spends (10 * L + 3) (fun _ => 0) (lte_prod e opE idm mappingE compE t l r) (ltc_prod e opc idm mappingc compc t l r).
  Proof. intros (H1 & H2 & H3 & H4). apply (lprod_spends R e opE opc idm mappingE mappingc compE compc A AM AC L); lia. Qed.

  Lemma climb_out u v : ~ (u < n /\ v < n) -> climb h u v = Panic.
  Proof.
    intros H. unfold climb. assert (length (h_head h) = n) as Hl by apply (hw_head _ _ (d_wf _ _ _ _ _ _ _ _ Hd)).
    destruct (vget (h_head h) u) as [hu| |] eqn:E; cbn [mbind res_bind]; [|reflexivity|exfalso; revert E; unfold vget; destruct (_ !! _); discriminate].
    apply vget_ok_iff, lookup_lt_Some in E. assert (vget (h_head h) v = Panic) as -> by (unfold vget; rewrite (lookup_ge_None_2 (h_head h) v) by lia; reflexivity). reflexivity.
  Qed.
  Lemma head_val u hu : u < n -> vget (h_head h) u = Ok hu -> hu = head u.
  Proof. intros Hu E. rewrite (vget_ok _ _ _ (d_head _ _ _ _ _ _ _ _ Hd u Hu)) in E. congruence. Qed.
  Lemma parent_val u p : u < n -> vget (h_parent h) u = Ok p -> p = par u.
  Proof. intros Hu E. rewrite (vget_ok _ _ _ (d_parent _ _ _ _ _ _ _ _ Hd u Hu)) in E. congruence. Qed.

  Definition in_tree (u v : nat) (t : lazytree S F) : Prop := u < n /\ v < n /\ lshape n t.

  Lemma apply_step_spends f u v t : in_tree u v t ->
    spends ((light u + light v) * (14 * L + 4)) (fun y => match y with inl (u, v, _) => (light u + light v) * (14 * L + 4) | inr _ => 0 end)
      (apply_pathe_step opE idm mappingE compE h f (u, v, t)) (apply_pathc_step opc idm mappingc compc h f (u, v, t)) /\
    forall y, apply_pathc_step opc idm mappingc compc h f (u, v, t) = Ok y -> match y with inl (u, v, t) | inr (u, v, t) => in_tree u v t end.
  Proof.
    intros (Hu & Hv & Hs). unfold apply_pathe_step, apply_pathc_step.
    destruct (climb_ok g root par dep Ht h hv pos posr Hd u v Hu Hv) as [[_ E]|(u1 & v1 & E & Huv & Hu1 & Hv1 & Hh & Hp & _ & Hl & _)]; rewrite E.
    - split; [apply spends_lift_bind; intros a [= <-]; apply spends_ret; lia|]. intros y [= <-]. exact (conj Hu (conj Hv Hs)).
    - split.
      + apply spends_lift_bind. intros a [= <-]. apply spends_lift_bind. intros hu Ehu. apply head_val in Ehu; [|exact Hu1]. subst hu.
        apply spends_lift_bind. intros l _. apply spends_lift_bind. intros r _.
        apply (spends_part_bind R (14 * L + 4) _ ((light (par (head u1)) + light v1) * (14 * L + 4))); [apply range_budget; exact Hs| |intros t1 _].
        * destruct Huv as [Huv|Huv]; injection Huv as -> ->; rewrite Hl; nia.
        * apply spends_lift_bind. intros p Ep. apply parent_val in Ep; [|exact Hh]. subst p. apply spends_ret. reflexivity.
      + cbn [mbind res_bind]. intros y Ey. apply rbind_ok_inv in Ey as (hu & Ehu & Ey). apply head_val in Ehu; [|exact Hu1]. subst hu.
        apply rbind_ok_inv in Ey as (l & _ & Ey). apply rbind_ok_inv in Ey as (r & _ & Ey). apply rbind_ok_inv in Ey as (t1 & Et & Ey).
        apply rbind_ok_inv in Ey as (p & Ep & Ey). apply parent_val in Ep; [|exact Hh]. injection Ey as <-. subst p. split; [exact Hp|]. split; [exact Hv1|].
        eapply range_shape; eassumption.
  Qed.
  Lemma prod_step_spends u v t acc : in_tree u v t ->
    spends ((light u + light v) * (10 * L + 4)) (fun y => match y with inl (u, v, _, _) => (light u + light v) * (10 * L + 4) | inr _ => 0 end)
      (path_prode_step e opE idm mappingE compE h (u, v, t, acc)) (path_prodc_step e opc idm mappingc compc h (u, v, t, acc)) /\
    forall y, path_prodc_step e opc idm mappingc compc h (u, v, t, acc) = Ok y -> match y with inl (u, v, t, _) | inr (u, v, t, _) => in_tree u v t end.
  Proof.
    intros (Hu & Hv & Hs). unfold path_prode_step, path_prodc_step.
    destruct (climb_ok g root par dep Ht h hv pos posr Hd u v Hu Hv) as [[_ E]|(u1 & v1 & E & Huv & Hu1 & Hv1 & Hh & Hp & _ & Hl & _)]; rewrite E.
    - split; [apply spends_lift_bind; intros a [= <-]; apply spends_ret; lia|]. intros y [= <-]. exact (conj Hu (conj Hv Hs)).
    - split.
      + apply spends_lift_bind. intros a [= <-]. apply spends_lift_bind. intros hu Ehu. apply head_val in Ehu; [|exact Hu1]. subst hu.
        apply spends_lift_bind. intros l _. apply spends_lift_bind. intros r _.
        apply (spends_part_bind R (10 * L + 3) _ (1 + (light (par (head u1)) + light v1) * (10 * L + 4))); [apply prod_budget; exact Hs| |intros [t1 z] _].
        * destruct Huv as [Huv|Huv]; injection Huv as -> ->; rewrite Hl; nia.
        * eapply (spends_call_bind R); [apply A|reflexivity|]. intros acc1 _.
          apply spends_lift_bind. intros p Ep. apply parent_val in Ep; [|exact Hh]. subst p. apply spends_ret. reflexivity.
      + cbn [mbind res_bind]. intros y Ey. apply rbind_ok_inv in Ey as (hu & Ehu & Ey). apply head_val in Ehu; [|exact Hu1]. subst hu.
        apply rbind_ok_inv in Ey as (l & _ & Ey). apply rbind_ok_inv in Ey as (r & _ & Ey). apply rbind_ok_inv in Ey as ([t1 z] & Et & Ey).
        apply rbind_ok_inv in Ey as (acc1 & _ & Ey).
        apply rbind_ok_inv in Ey as (p & Ep & Ey). apply parent_val in Ep; [|exact Hh]. injection Ey as <-. subst p. split; [exact Hp|]. split; [exact Hv1|].
        eapply prod_shape; eassumption.
  Qed.

  Lemma loop_keeps {St B} (I : St -> Prop) (J : B -> Prop) (step : St -> res (St + B)) :
    (forall s y, I s -> step s = Ok y -> match y with inl s' => I s' | inr b => J b end) ->
    forall fuel s b, I s -> rloop fuel step s = Ok b -> J b.
  Proof.
    intros H. induction fuel as [|fuel IH]; intros s b HI E; [discriminate|]. cbn [rloop] in E. destruct (step s) as [y| |] eqn:Ey; cbn [mbind res_bind] in E; try discriminate.
    specialize (H s y HI Ey). destruct y as [s'|b']; [exact (IH s' b H E)|]. injection E as <-. exact H.
  Qed.

  Definition hshape (x : hld S F) : Prop := lshape n (hd_data x) /\ hd_tree x = h.

  Lemma apply_path_spends x u v f : hshape x ->
    spends ((2 * Nat.log2 n + 1) * (14 * L + 4)) (fun _ => 0) (hlde_apply_path opE idm mappingE compE x u v f) (hldc_apply_path opc idm mappingc compc x u v f) /\
    forall x', hldc_apply_path opc idm mappingc compc x u v f = Ok x' -> hshape x'.
  Proof.
    destruct x as [t h']. intros [Hs Hh]. cbn in Hs, Hh. subst h'. unfold hlde_apply_path, hldc_apply_path. cbn [hd_tree hd_data]. cbv zeta.
    assert (exists k, path_fuel (Hld t h) = Datatypes.S k) as [k ->] by (exists (2 * length (h_pos h)); unfold path_fuel; cbn [hd_tree]; lia).
    destruct (decide (u < n /\ v < n)) as [[Hu Hv]|Hout].
    - pose proof (fuel_enough g root par dep Ht h hv pos posr Hd u v Hu Hv) as Hf.
      assert (forall s y, (let '(u, v, t) := s in in_tree u v t) -> apply_pathc_step opc idm mappingc compc h f s = Ok y ->
        match y with inl s' => (let '(u, v, t) := s' in in_tree u v t) | inr b => (let '(u, v, t) := b in in_tree u v t) end) as K.
      { intros [[a b] c] y HI Ey. destruct (apply_step_spends f a b c HI) as [_ H]. specialize (H y Ey). destruct y as [[[? ?] ?]|[[? ?] ?]]; exact H. }
      split.
      + apply (spends_part_bind R ((light u + light v) * (14 * L + 4)) _ (14 * L + 4)); [|nia|intros [[u1 v1] t1] E1].
        * apply (spends_loop R (fun s => let '(u, v, t) := s in in_tree u v t) (fun s => let '(u, v, _) := s in (light u + light v) * (14 * L + 4)) (fun _ => 0)
            (apply_pathe_step opE idm mappingE compE h f) (apply_pathc_step opc idm mappingc compc h f)).
          -- intros [[a b] c] HI. eapply spends_weak; [apply apply_step_spends; exact HI|reflexivity|]. intros [[[? ?] ?]|?] _; reflexivity.
          -- intros s s' HI E. exact (K s _ HI E).
          -- exact (conj Hu (conj Hv Hs)).
        * assert (in_tree u1 v1 t1) as (Hu1 & Hv1 & Hs1) by (apply (loop_keeps _ (fun s => let '(u, v, t) := s in in_tree u v t) _ K _ (u, v, t) _ (conj Hu (conj Hv Hs)) E1)).
          apply spends_lift_bind. intros uv _. apply spends_lift_bind. intros l _. apply spends_lift_bind. intros r _.
          apply (spends_part_bind R (14 * L + 4) _ 0); [apply range_budget; exact Hs1|lia|intros; apply spends_ret; lia].
      + intros x' E. apply rbind_ok_inv in E as ([[u1 v1] t1] & E1 & E).
        assert (in_tree u1 v1 t1) as (Hu1 & Hv1 & Hs1) by (apply (loop_keeps _ (fun s => let '(u, v, t) := s in in_tree u v t) _ K _ (u, v, t) _ (conj Hu (conj Hv Hs)) E1)).
        apply rbind_ok_inv in E as (uv & _ & E). apply rbind_ok_inv in E as (l & _ & E). apply rbind_ok_inv in E as (r & _ & E). apply rbind_ok_inv in E as (t2 & E2 & E).
        injection E as <-. split; [eapply range_shape; eassumption|reflexivity].
    - assert (apply_pathc_step opc idm mappingc compc h f (u, v, t) = Panic) as E1 by (unfold apply_pathc_step; rewrite (climb_out u v Hout); reflexivity).
      assert (forall w, apply_pathe_step opE idm mappingE compE h f (u, v, t) w = Panic) as E2 by (intros w; unfold apply_pathe_step; rewrite (climb_out u v Hout); reflexivity).
      cbn [rloop]. rewrite E1. split; [|discriminate]. intros w. cbn [mbind res_bind eloop]. unfold ebind at 1 2. rewrite E2. reflexivity.
  Qed.
  Lemma path_prod_spends x u v : hshape x ->
    spends ((2 * Nat.log2 n + 1) * (10 * L + 4)) (fun _ => 0) (hlde_path_prod e opE idm mappingE compE x u v) (hldc_path_prod e opc idm mappingc compc x u v) /\
    forall x' z, hldc_path_prod e opc idm mappingc compc x u v = Ok (x', z) -> hshape x'.
  Proof.
    destruct x as [t h']. intros [Hs Hh]. cbn in Hs, Hh. subst h'. unfold hlde_path_prod, hldc_path_prod. cbn [hd_tree hd_data]. cbv zeta.
    assert (exists k, path_fuel (Hld t h) = Datatypes.S k) as [k ->] by (exists (2 * length (h_pos h)); unfold path_fuel; cbn [hd_tree]; lia).
    destruct (decide (u < n /\ v < n)) as [[Hu Hv]|Hout].
    - pose proof (fuel_enough g root par dep Ht h hv pos posr Hd u v Hu Hv) as Hf.
      assert (forall s y, (let '(u, v, t, _) := s in in_tree u v t) -> path_prodc_step e opc idm mappingc compc h s = Ok y ->
        match y with inl s' => (let '(u, v, t, _) := s' in in_tree u v t) | inr b => (let '(u, v, t, _) := b in in_tree u v t) end) as K.
      { intros [[[a b] c] d] y HI Ey. destruct (prod_step_spends a b c d HI) as [_ H]. specialize (H y Ey). destruct y as [[[[? ?] ?] ?]|[[[? ?] ?] ?]]; exact H. }
      split.
      + apply (spends_part_bind R ((light u + light v) * (10 * L + 4)) _ (10 * L + 4)); [|nia|intros [[[u1 v1] t1] acc] E1].
        * apply (spends_loop R (fun s => let '(u, v, t, _) := s in in_tree u v t) (fun s => let '(u, v, _, _) := s in (light u + light v) * (10 * L + 4)) (fun _ => 0)
            (path_prode_step e opE idm mappingE compE h) (path_prodc_step e opc idm mappingc compc h)).
          -- intros [[[a b] c] d] HI. eapply spends_weak; [apply prod_step_spends; exact HI|reflexivity|]. intros [[[[? ?] ?] ?]|?] _; reflexivity.
          -- intros s s' HI E. exact (K s _ HI E).
          -- exact (conj Hu (conj Hv Hs)).
        * assert (in_tree u1 v1 t1) as (Hu1 & Hv1 & Hs1) by (apply (loop_keeps _ (fun s => let '(u, v, t, _) := s in in_tree u v t) _ K _ (u, v, t, e) _ (conj Hu (conj Hv Hs)) E1)).
          apply spends_lift_bind. intros uv _. apply spends_lift_bind. intros l _. apply spends_lift_bind. intros r _.
          apply (spends_part_bind R (10 * L + 3) _ 1); [apply prod_budget; exact Hs1|lia|intros [t2 z] _].
          eapply (spends_call_bind R _ 0); [apply A|lia|]. intros. apply spends_ret. lia.
      + intros x' z' E. apply rbind_ok_inv in E as ([[[u1 v1] t1] acc] & E1 & E).
        assert (in_tree u1 v1 t1) as (Hu1 & Hv1 & Hs1) by (apply (loop_keeps _ (fun s => let '(u, v, t, _) := s in in_tree u v t) _ K _ (u, v, t, e) _ (conj Hu (conj Hv Hs)) E1)).
        apply rbind_ok_inv in E as (uv & _ & E). apply rbind_ok_inv in E as (l & _ & E). apply rbind_ok_inv in E as (r & _ & E). apply rbind_ok_inv in E as ([t2 z] & E2 & E).
        apply rbind_ok_inv in E as (acc2 & _ & E). injection E as <- _. split; [eapply prod_shape; eassumption|reflexivity].
    - assert (path_prodc_step e opc idm mappingc compc h (u, v, t, e) = Panic) as E1 by (unfold path_prodc_step; rewrite (climb_out u v Hout); reflexivity).
      assert (forall w, path_prode_step e opE idm mappingE compE h (u, v, t, e) w = Panic) as E2 by (intros w; unfold path_prode_step; rewrite (climb_out u v Hout); reflexivity).
      cbn [rloop]. rewrite E1. split; [|discriminate]. intros w. cbn [mbind res_bind eloop]. unfold ebind at 1 2. rewrite E2. reflexivity.
  Qed.

  Lemma hstep_spends x o : hshape x -> hpred_ok R o ->
    spends (hld_calls n (hplain o)) (fun _ => 0) (hlde_step e opE idm mappingE compE x o) (hldc_step e opc idm mappingc compc x (hplain o)).
  Proof.
    intros Hx P. pose proof Hx as [Hs Hh]. pose proof Hs as (Hn & Hl & _). destruct o as [u v f|u v|u f|u|u|u y|o]; cbn [hplain hld_calls hlde_step hldc_step]; cbv zeta.
    - eapply (spends_part_bind R _ _ 0); [apply apply_path_spends; exact Hx|lia|intros; apply spends_ret; lia].
    - eapply (spends_part_bind R _ _ 0); [apply path_prod_spends; exact Hx|lia|intros [? ?] _; apply spends_ret; lia].
    - eapply (spends_part_bind R (14 * L + 4) _ 0); [|lia|intros; apply spends_ret; lia]. apply spends_lift_bind. intros l _. apply spends_lift_bind. intros r _.
      apply (spends_part_bind R (14 * L + 4) _ 0); [apply range_budget; exact Hs|lia|intros; apply spends_ret; lia].
    - eapply (spends_part_bind R (10 * L + 3) _ 0); [|lia|intros [? ?] _; apply spends_ret; lia]. apply spends_lift_bind. intros l _. apply spends_lift_bind. intros r _.
      apply (spends_part_bind R (10 * L + 3) _ 0); [apply prod_budget; exact Hs|lia|intros; apply spends_ret; lia].
    - eapply (spends_part_bind R (4 * L) _ 0); [|lia|intros [? ?] _; apply spends_ret; lia]. apply spends_lift_bind. intros p _.
      eapply (spends_part_bind R (4 * L) _ 0); [rewrite <- Hl; apply lget_spends; eassumption|lia|intros; apply spends_ret; lia].
    - eapply (spends_part_bind R (5 * L) _ 0); [|lia|intros; apply spends_ret; lia]. apply spends_lift_bind. intros p _.
      eapply (spends_part_bind R (5 * L) _ 0); [rewrite <- Hl; apply lset_spends; eassumption|lia|intros; apply spends_ret; lia].
    - eapply (spends_part_bind R _ _ 0); [apply lstep_spends; eassumption|cbn; lia|intros [? ?] _; apply spends_ret; lia].
  Qed.
  Lemma hstep_shape x o x' out : hshape x -> hldc_step e opc idm mappingc compc x o = Ok (x', out) -> hshape x'.
  Proof.
    intros Hx. pose proof Hx as [Hs Hh]. destruct o as [u v f|u v|u f|u|u|u y|o]; cbn [hldc_step]; intros E.
    - apply rbind_ok_inv in E as (x1 & E1 & E). injection E as <- _. eapply apply_path_spends; eassumption.
    - apply rbind_ok_inv in E as ([x1 z] & E1 & E). injection E as <- _. eapply path_prod_spends; eassumption.
    - apply rbind_ok_inv in E as (x1 & E1 & E). injection E as <- _. apply rbind_ok_inv in E1 as (l & _ & E1). apply rbind_ok_inv in E1 as (r & _ & E1).
      apply rbind_ok_inv in E1 as (t & Et & E1). injection E1 as <-. split; [eapply range_shape; eassumption|exact Hh].
    - apply rbind_ok_inv in E as ([x1 z] & E1 & E). injection E as <- _. apply rbind_ok_inv in E1 as (l & _ & E1). apply rbind_ok_inv in E1 as (r & _ & E1).
      apply rbind_ok_inv in E1 as ([t y] & Et & E1). injection E1 as <- _. split; [eapply prod_shape; eassumption|exact Hh].
    - apply rbind_ok_inv in E as ([x1 z] & E1 & E). injection E as <- _. apply rbind_ok_inv in E1 as (p & _ & E1).
      apply rbind_ok_inv in E1 as ([t y] & Et & E1). injection E1 as <- _. split; [|exact Hh].
      apply (lstep_shape e opc idm mappingc compc n (hd_data x) (LzGet p) t (LzVal y) Hs). cbn [ltc_step]. rewrite Et. reflexivity.
    - apply rbind_ok_inv in E as (x1 & E1 & E). injection E as <- _. apply rbind_ok_inv in E1 as (p & _ & E1).
      apply rbind_ok_inv in E1 as (t & Et & E1). injection E1 as <-. split; [|exact Hh].
      apply (lstep_shape e opc idm mappingc compc n (hd_data x) (LzSet p y) t LzUnit Hs). cbn [ltc_step]. rewrite Et. reflexivity.
    - apply rbind_ok_inv in E as ([t z] & E1 & E). injection E as <- _. split; [eapply lstep_shape; eassumption|exact Hh].
  Qed.
End Hld.

Section History.
  Context {W S F : Type} (R : relation W) (e : S) (opE : S -> S -> eff W S) (opc : S -> S -> res S) (idm : F).
  Context (mappingE : F -> S -> eff W S) (mappingc : F -> S -> res S) (compE : F -> F -> eff W F) (compc : F -> F -> res F).
  Context (A : forall a b, spends R 1 (fun _ => 0) (opE a b) (opc a b)).
  Context (AM : forall f x, spends R 1 (fun _ => 0) (mappingE f x) (mappingc f x)).
  Context (AC : forall f g, spends R 1 (fun _ => 0) (compE f g) (compc f g)).
  Context (g : list (list nat)) (root : nat) (T : is_tree g).
  Notation n := (length g).

  Lemma hnew_shape x : hldc_new e opc idm g root = Ok x -> exists par dep h hv pos posr, rtree g root par dep /\ decomp g root par dep h hv pos posr /\ hshape (S := S) (F := F) g h x.
  Proof.
    unfold hldc_new. intros E. destruct (Nat.ltb_spec root n) as [Hr|]; [|discriminate]. cbn [rassert mbind res_bind] in E.
    destruct (tree_rtree g T root Hr) as (par & dep & Rt). destruct (hl_new_ok g root par dep Rt) as (h & hv & pos & posr & Eh & D).
    apply rbind_ok_inv in E as (t & Et & E). rewrite Eh in E. cbn [mbind res_bind] in E. injection E as <-. exists par, dep, h, hv, pos, posr.
    split; [exact Rt|]. split; [exact D|]. split; [|reflexivity]. apply lfrom_shape in Et. rewrite replicate_length in Et. exact Et.
  Qed.
  Lemma hinit_shape v x : hldc_with_init e opc idm g root v = Ok x -> exists par dep h hv pos posr, rtree g root par dep /\ decomp g root par dep h hv pos posr /\ hshape (S := S) (F := F) g h x.
  Proof.
    unfold hldc_with_init. intros E. destruct (Nat.eqb_spec n (length v)) as [Hv|]; [|discriminate]. cbn [rassert mbind res_bind] in E.
    apply rbind_ok_inv in E as (x1 & E1 & E). apply hnew_shape in E1 as (par & dep & h & hv & pos & posr & Rt & D & [_ Hh]).
    apply rbind_ok_inv in E as (a & Ea & E). apply rbind_ok_inv in E as (t & Et & E). injection E as <-. exists par, dep, h, hv, pos, posr.
    split; [exact Rt|]. split; [exact D|]. split; [|exact Hh]. apply lfrom_shape in Et. cbn [hd_data]. replace n with (length a); [exact Et|]. rewrite Hv.
    exact (moved_length _ _ _ _ _ Ea).
  Qed.

  Lemma hrun_spends x ops : (exists par dep h hv pos posr, rtree g root par dep /\ decomp g root par dep h hv pos posr /\ hshape (S := S) (F := F) g h x) -> Forall (hpred_ok R) ops ->
    spends R (sum_list_with (hld_calls n) (hplain <$> ops)) (fun _ => 0) (erun (hlde_step e opE idm mappingE compE) x ops) (run (hldc_step e opc idm mappingc compc) x (hplain <$> ops)).
  Proof.
    intros (par & dep & h & hv & pos & posr & Rt & D & Hx) P.
    apply (spends_run R (hshape g h) (hpred_ok R) hplain (hld_calls n) (hlde_step e opE idm mappingE compE) (hldc_step e opc idm mappingc compc)); [| |exact Hx|exact P].
    - intros. eapply hstep_spends; eassumption.
    - intros. eapply hstep_shape; eassumption.
  Qed.
  Lemma hnew_history ops : Forall (hpred_ok R) ops ->
    spends R (2 * n + sum_list_with (hld_calls n) (hplain <$> ops)) (fun _ => 0) (x <* hlde_new e opE idm g root ;* erun (hlde_step e opE idm mappingE compE) x ops)
      (x ← hldc_new e opc idm g root; run (hldc_step e opc idm mappingc compc) x (hplain <$> ops)).
  Proof. intros P. eapply spends_part_bind; [apply hnew_spends; eassumption|reflexivity|]. intros x E. apply hrun_spends; [apply hnew_shape; exact E|exact P]. Qed.
  Lemma hinit_history v ops : Forall (hpred_ok R) ops ->
    spends R (4 * n + sum_list_with (hld_calls n) (hplain <$> ops)) (fun _ => 0) (x <* hlde_with_init e opE idm g root v ;* erun (hlde_step e opE idm mappingE compE) x ops)
      (x ← hldc_with_init e opc idm g root v; run (hldc_step e opc idm mappingc compc) x (hplain <$> ops)).
  Proof. intros P. eapply spends_part_bind; [apply hinit_spends; eassumption|reflexivity|]. intros x E. apply hrun_spends; [eapply hinit_shape; exact E|exact P]. Qed.
End History.
