(** Heavy-light decomposition of the tree that hangs at the root, in a graph that may have other vertices: the two depth-first searches. *)
From Verif Require Import Prelude TreeSpec CompSpec HldModel CompTree.

Section tree.
  Context (g : list (list nat)) (C : nat -> Prop) (root : nat) (par dep : nat -> nat) (Ht : ctree g C root par dep).
  (** The vertices of the tree; the parent function is the identity elsewhere. *)
  Context (vs : list nat) (Hvs : forall v, v ∈ vs <-> C v) (Hvn : NoDup vs) (Hiso : forall v, ~ C v -> par v = v).
  Notation n := (length g).
  Notation m := (length vs).
  Notation up := (up par).
  Notation anc := (anc par).
  Notation child := (child C root par).

  Lemma C_lt v : C v -> v < n.
  Proof. apply (t_lt _ _ _ _ _ Ht). Qed.
  Lemma out_anc u v : C u -> ~ C v -> ~ anc u v.
  Proof.
    intros Hu Hv [k Hk]. assert (up k v = v) as E; [|congruence]. clear Hk. induction k as [|k IH]; cbn; [reflexivity|]. rewrite IH. apply Hiso. exact Hv.
  Qed.

  (** *** Subtrees and their sizes *)
  Definition ancb (u v : nat) : bool := bool_decide (u ∈ map (fun k => up k v) (seq 0 (S (dep v)))).
  Lemma ancb_iff u v : C v -> ancb u v = true <-> anc u v.
  Proof.
    intros Hv. unfold ancb. rewrite bool_decide_eq_true. split.
    - intros H. apply elem_of_list_fmap in H as (k & -> & _). apply anc_up.
    - intros A. destruct (anc_bound _ _ _ _ _ Ht _ _ Hv A) as (j & J1 & J2 & _). apply elem_of_list_fmap. exists j. split; [symmetry; exact J2|].
      apply elem_of_seq. lia.
  Qed.
  Definition subtree (u : nat) : list nat := filter (fun v => ancb u v = true) vs.
  Lemma elem_subtree u v : v ∈ subtree u <-> C v /\ anc u v.
  Proof.
    unfold subtree. rewrite elem_of_list_filter, Hvs. split.
    - intros [H1 H2]. split; [exact H2|]. apply ancb_iff; [exact H2|exact H1].
    - intros [H1 H2]. split; [apply ancb_iff; auto|exact H1].
  Qed.
  Lemma NoDup_subtree u : NoDup (subtree u).
  Proof. apply NoDup_filter, Hvn. Qed.
  Definition sz (u : nat) : nat := length (subtree u).
  Lemma sz_pos u : C u -> 0 < sz u.
  Proof.
    intros Hu. unfold sz. assert (u ∈ subtree u) as H by (apply elem_subtree; split; [exact Hu|apply anc_refl]). destruct (subtree u); [inversion H|cbn; lia].
  Qed.

  Lemma elem_concat_subtree cs v : v ∈ concat (map subtree cs) <-> exists c, c ∈ cs /\ C v /\ anc c v.
  Proof.
    rewrite elem_of_list_In, in_concat. split.
    - intros (l & H1 & H2). apply in_map_iff in H1 as (c & <- & H1). exists c. rewrite elem_of_list_In. split; [exact H1|]. apply elem_subtree, elem_of_list_In, H2.
    - intros (c & H1 & H2). exists (subtree c). split; [apply in_map, elem_of_list_In, H1|apply elem_of_list_In, elem_subtree, H2].
  Qed.
  Lemma NoDup_concat_subtree u cs : NoDup cs -> (forall c, c ∈ cs -> child u c) -> NoDup (concat (map subtree cs)).
  Proof.
    induction cs as [|c cs IH]; intros Hnd Hch; [constructor|]. cbn. apply NoDup_cons in Hnd as [Hnin Hnd]. apply NoDup_app. split; [apply NoDup_subtree|]. split.
    - intros v Hv Hv'. apply elem_subtree in Hv as [Hv A]. apply elem_concat_subtree in Hv' as (c' & Hc' & _ & A').
      apply Hnin. rewrite (child_disjoint _ _ _ _ _ Ht u c c' v); auto; apply Hch; [apply elem_of_list_here|apply elem_of_list_further; exact Hc'].
    - apply IH; [exact Hnd|]. intros x Hx. apply Hch. apply elem_of_list_further. exact Hx.
  Qed.
  Lemma subtree_perm u cs : C u -> NoDup cs -> (forall c, c ∈ cs <-> child u c) -> subtree u ≡ₚ u :: concat (map subtree cs).
  Proof.
    intros Hu Hnd Hch. apply NoDup_Permutation.
    - apply NoDup_subtree.
    - apply NoDup_cons. split; [|eapply NoDup_concat_subtree; [exact Hnd|apply Hch]].
      intros H. apply elem_concat_subtree in H as (c & Hc & _ & A). apply Hch in Hc. exact (child_not_anc _ _ _ _ _ Ht u c Hc A).
    - intros v. rewrite elem_subtree, elem_of_cons, elem_concat_subtree. split.
      + intros [Hv A]. apply (anc_split _ _ _ _ _ Ht u v Hv) in A as [->|(c & Hc & A)]; [left; reflexivity|right]. exists c. rewrite Hch. auto.
      + intros [->|(c & Hc & Hv & A)]; [split; [exact Hu|apply anc_refl]|]. split; [exact Hv|]. apply (anc_split _ _ _ _ _ Ht u v Hv). right. exists c. rewrite <- Hch. auto.
  Qed.

  Record hwf (h : hl) : Prop := {
    hw_parent : length (h_parent h) = n;
    hw_dep : length (h_dep h) = n;
    hw_heavy : length (h_heavy h) = n;
    hw_head : length (h_head h) = n;
    hw_pos : length (h_pos h) = n;
    hw_posr : length (h_posr h) = n }.

  (** *** dfs1 *)
  Definition heavy_ok (v : nat) (hc : option nat) : Prop :=
    match hc with None => forall c, ~ child v c | Some c => child v c /\ forall c', child v c' -> sz c' <= sz c end.
  Definition same1 (h h' : hl) (v : nat) : Prop :=
    h_parent h' !! v = h_parent h !! v /\ h_dep h' !! v = h_dep h !! v /\ h_heavy h' !! v = h_heavy h !! v.
  Lemma same1_trans h1 h2 h3 v : same1 h1 h2 v -> same1 h2 h3 v -> same1 h1 h3 v.
  Proof. intros (A1 & A2 & A3) (B1 & B2 & B3). repeat split; congruence. Qed.
  Definition fin1 (h : hl) (v : nat) : Prop :=
    h_parent h !! v = Some (par v) /\ h_dep h !! v = Some (dep v) /\ exists hc, h_heavy h !! v = Some hc /\ heavy_ok v hc.
  Lemma fin1_same h h' v : same1 h h' v -> fin1 h v -> fin1 h' v.
  Proof. intros (A1 & A2 & A3) (B1 & B2 & B3). unfold fin1. rewrite A1, A2, A3. auto. Qed.

  Lemma dfs1_ok : forall fuel u h, n < fuel + dep u -> C u -> hwf h ->
    h_parent h !! u = Some (par u) -> h_dep h !! u = Some (dep u) -> (forall v, C v -> anc u v -> h_heavy h !! v = Some None) ->
    exists h', dfs1 fuel g u h = Ok (h', sz u) /\ hwf h' /\ (forall v, ~ anc u v -> same1 h h' v) /\ (forall v, C v -> anc u v -> fin1 h' v).
  Proof.
    induction fuel as [|fuel IH]; intros u h Hf Hu W Hp Hd Hnone; [pose proof (dep_lt _ _ _ _ _ Ht u Hu); lia|].
    cbn [dfs1]. destruct (lookup_lt_is_Some_2 g u (C_lt u Hu)) as [es Hes]. rewrite (vget_ok _ _ _ Hes). cbn [mbind res_bind].
    pose proof (t_nodup _ _ _ _ _ Ht u es Hu Hes) as Hnd.
    pose (I := fun (done : list nat) (st : hl * nat * nat) =>
      let '(h', size, mx) := st in
      hwf h' /\ (forall v, ~ anc u v -> same1 h h' v) /\ h_parent h' !! u = Some (par u) /\ h_dep h' !! u = Some (dep u) /\
      (forall c v, c ∈ done -> child u c -> C v -> anc c v -> fin1 h' v) /\
      (forall c v, c ∉ done -> child u c -> C v -> anc c v -> h_heavy h' !! v = Some None) /\
      size = S (length (concat (map subtree (filter (fun v => v <> par u) done)))) /\
      exists hc, h_heavy h' !! u = Some hc /\
        match hc with
        | None => mx = 0 /\ forall c, c ∈ done -> ~ child u c
        | Some c => c ∈ done /\ child u c /\ mx = sz c /\ forall c', c' ∈ done -> child u c' -> sz c' <= mx
        end).
    destruct (rfor_inv I es (dfs1_edge (dfs1 fuel g) u) (h, 1, 0)) as ([[h1 size] mx] & E1 & W1 & F1 & P1 & D1 & Fin & _ & Hsz & hc & Hhc & Hmx).
    - unfold I. split; [exact W|]. split; [intros v _; repeat split; reflexivity|]. split; [exact Hp|]. split; [exact Hd|].
      split; [intros c v Hc; inversion Hc|]. split.
      { intros c v _ Hc Hv A. apply Hnone; [exact Hv|]. eapply anc_trans; [apply (child_anc C root par); exact Hc|exact A]. }
      split; [reflexivity|]. exists None. split; [apply Hnone; [exact Hu|apply anc_refl]|]. split; [reflexivity|]. intros c Hc. inversion Hc.
    - intros done c rest [[h1 size] mx] Ees (W1 & F1 & P1 & D1 & Fin & Non & Hsz & hc & Hhc & Hmx). unfold dfs1_edge.
      assert (c ∈ es) as Hc by (rewrite Ees; apply elem_of_app; right; apply elem_of_list_here).
      rewrite (vget_ok _ _ _ P1). cbn [mbind res_bind]. destruct (c =? par u) eqn:Ecp.
      { apply Nat.eqb_eq in Ecp. eexists. split; [reflexivity|]. unfold I.
        assert (~ child u c) as Hnc by (intros Hch; apply (adj_children _ _ _ _ _ Ht u es c Hu Hes) in Hch; tauto).
        split; [exact W1|]. split; [exact F1|]. split; [exact P1|]. split; [exact D1|]. split; [|split; [|split]].
        - intros x v Hx Hch. apply elem_of_app in Hx as [Hx|Hx]; [eauto|]. apply elem_of_list_singleton in Hx as ->. contradiction.
        - intros x v Hx. apply Non. intros H. apply Hx. apply elem_of_app. auto.
        - rewrite filter_app, filter_cons_False by tauto. rewrite app_nil_r. exact Hsz.
        - exists hc. split; [exact Hhc|]. destruct hc as [c0|].
          + destruct Hmx as (M1 & M2 & M3 & M4). split; [apply elem_of_app; auto|]. split; [exact M2|]. split; [exact M3|].
            intros x Hx Hch. apply elem_of_app in Hx as [Hx|Hx]; [auto|]. apply elem_of_list_singleton in Hx as ->. contradiction.
          + destruct Hmx as (M1 & M2). split; [exact M1|]. intros x Hx. apply elem_of_app in Hx as [Hx|Hx]; [auto|]. apply elem_of_list_singleton in Hx as ->. exact Hnc. }
      apply Nat.eqb_neq in Ecp. assert (child u c) as Hch by (apply (adj_children _ _ _ _ _ Ht u es c Hu Hes); auto).
      pose proof Hch as (Hcc & Hcr & Hcp). pose proof (child_dep _ _ _ _ _ Ht u c Hch) as Hcd.
      rewrite vset_ok by (rewrite (hw_parent _ W1); apply C_lt; exact Hcc). cbn [mbind res_bind]. rewrite (vget_ok _ _ _ D1). cbn [mbind res_bind].
      rewrite vset_ok by (rewrite (hw_dep _ W1); apply C_lt; exact Hcc). cbn [mbind res_bind].
      set (h2 := HL (<[c:=u]> (h_parent h1)) (<[c:=dep u + 1]> (h_dep h1)) (h_heavy h1) (h_head h1) (h_pos h1) (h_posr h1)).
      assert (u <> c) as Huc by (intros <-; lia).
      assert (forall v, v <> c -> same1 h1 h2 v) as S2.
      { intros v Hv. repeat split; cbn; apply list_lookup_insert_ne; auto. }
      assert (c ∉ done) as Hnin.
      { rewrite Ees in Hnd. apply NoDup_app in Hnd as (_ & Hnd & _). intros Hin. exact (Hnd c Hin ltac:(apply elem_of_list_here)). }
      destruct (IH c h2) as (h3 & E3 & W3 & F3 & Fin3).
      + lia.
      + exact Hcc.
      + destruct W1. split; cbn; rewrite ?insert_length; auto.
      + cbn. rewrite list_lookup_insert by (rewrite (hw_parent _ W1); apply C_lt; exact Hcc). rewrite Hcp. reflexivity.
      + cbn. rewrite list_lookup_insert by (rewrite (hw_dep _ W1); apply C_lt; exact Hcc). f_equal. lia.
      + intros v Hv A. cbn. exact (Non c v Hnin Hch Hv A).
      + rewrite E3. cbn [mbind res_bind].
        assert (forall v, ~ anc c v -> same1 h1 h3 v) as S3.
        { intros v Hv. eapply same1_trans; [apply S2|apply F3; exact Hv]. intros ->. apply Hv. apply anc_refl. }
        pose proof (child_not_anc _ _ _ _ _ Ht u c Hch) as Hnu. destruct (S3 u Hnu) as (A1 & A2 & A3).
        set (h4 := if mx <? sz c then HL (h_parent h3) (h_dep h3) (<[u:=Some c]> (h_heavy h3)) (h_head h3) (h_pos h3) (h_posr h3) else h3).
        assert ((if mx <? sz c then heavy ← vset (h_heavy h3) u (Some c);
                   Ok (HL (h_parent h3) (h_dep h3) heavy (h_head h3) (h_pos h3) (h_posr h3), size + sz c, sz c)
                 else Ok (h3, size + sz c, mx)) = Ok (h4, size + sz c, if mx <? sz c then sz c else mx)) as ->.
        { unfold h4. destruct (mx <? sz c); [|reflexivity]. rewrite vset_ok by (rewrite (hw_heavy _ W3); apply C_lt; exact Hu). reflexivity. }
        eexists. split; [reflexivity|]. unfold I.
        assert (forall v, v <> u -> same1 h3 h4 v) as S4.
        { intros v Hv. unfold h4. destruct (mx <? sz c); [|repeat split; reflexivity]. repeat split; cbn. apply list_lookup_insert_ne. auto. }
        assert (h_parent h4 = h_parent h3 /\ h_dep h4 = h_dep h3) as [Q1 Q2] by (unfold h4; destruct (mx <? sz c); auto).
        assert (forall x v, x ∈ done -> child u x -> C v -> anc x v -> ~ anc c v) as Hdis.
        { intros x v Hx Hxc Hv Hxv Hcv. apply Hnin. rewrite (child_disjoint _ _ _ _ _ Ht u c x v); auto. }
        assert (forall x v, child u x -> anc x v -> v <> u) as Hnotu.
        { intros x v Hx A ->. exact (child_not_anc _ _ _ _ _ Ht u x Hx A). }
        split; [|split; [|split; [|split; [|split; [|split; [|split]]]]]].
        * destruct W3. unfold h4. destruct (mx <? sz c); split; cbn; rewrite ?insert_length; auto.
        * intros v Hv. eapply same1_trans; [apply F1; exact Hv|]. eapply same1_trans; [apply S3|apply S4].
          -- intros A. apply Hv. eapply anc_trans; [apply (child_anc C root par); exact Hch|exact A].
          -- intros ->. apply Hv. apply anc_refl.
        * rewrite Q1. congruence.
        * rewrite Q2. congruence.
        * intros x v Hx Hxc Hv Hxv. apply (fin1_same h3); [apply S4; eauto|]. apply elem_of_app in Hx as [Hx|Hx].
          -- apply (fin1_same h1); [apply S3; eauto|eauto].
          -- apply elem_of_list_singleton in Hx as ->. apply Fin3; auto.
        * intros x v Hx Hxc Hv Hxv. destruct (S4 v) as (_ & _ & ->); [eauto|]. destruct (S3 v) as (_ & _ & ->).
          -- intros A. apply Hx. rewrite (child_disjoint _ _ _ _ _ Ht u x c v); auto. apply elem_of_app. right. apply elem_of_list_here.
          -- apply (Non x v); auto. intros H. apply Hx. apply elem_of_app. auto.
        * rewrite filter_app, filter_cons_True by exact Ecp. rewrite map_app, concat_app, app_length. cbn. rewrite app_nil_r. unfold sz. lia.
        * destruct (Nat.ltb_spec mx (sz c)) as [Hlt|Hge].
          -- exists (Some c). unfold h4. cbn. split; [apply list_lookup_insert; rewrite (hw_heavy _ W3); apply C_lt; exact Hu|].
             split; [apply elem_of_app; right; apply elem_of_list_here|]. split; [exact Hch|]. split; [reflexivity|].
             intros x Hx Hxc. apply elem_of_app in Hx as [Hx|Hx]; [|apply elem_of_list_singleton in Hx as ->; lia].
             destruct hc as [c0|]; [destruct Hmx as (_ & _ & _ & M); specialize (M x Hx Hxc); lia|]. destruct Hmx as (_ & M). exfalso. exact (M x Hx Hxc).
          -- exists hc. unfold h4. split; [congruence|]. pose proof (sz_pos c Hcc) as Hpos.
             destruct hc as [c0|]; [|destruct Hmx as (-> & _); lia]. destruct Hmx as (M1 & M2 & M3 & M4).
             split; [apply elem_of_app; auto|]. split; [exact M2|]. split; [exact M3|]. intros x Hx Hxc.
             apply elem_of_app in Hx as [Hx|Hx]; [auto|]. apply elem_of_list_singleton in Hx as ->. exact Hge.
    - rewrite E1. cbn [mbind res_bind].
      assert (forall c, c ∈ filter (fun v => v <> par u) es <-> child u c) as Hkids.
      { intros c. rewrite elem_of_list_filter. rewrite <- (adj_children _ _ _ _ _ Ht u es c Hu Hes). tauto. }
      assert (size = sz u) as ->.
      { rewrite Hsz. symmetry. apply (Permutation_length (subtree_perm u (filter (fun v => v <> par u) es) Hu ltac:(apply NoDup_filter; exact Hnd) Hkids)). }
      exists h1. split; [reflexivity|]. split; [exact W1|]. split; [exact F1|].
      assert (forall c, child u c -> c ∈ es) as Hin.
      { intros c Hc. apply (adj_children _ _ _ _ _ Ht u es c Hu Hes). exact Hc. }
      intros v Hv A. apply (anc_split _ _ _ _ _ Ht u v Hv) in A as [->|(c & Hc & A)]; [|apply (Fin c v); auto].
      split; [exact P1|]. split; [exact D1|]. exists hc. split; [exact Hhc|]. destruct hc as [c|]; cbn.
      + destruct Hmx as (M1 & M2 & M3 & M4). split; [exact M2|]. intros c' Hc'. rewrite <- M3. auto.
      + destruct Hmx as (M1 & M2). intros c Hc. exact (M2 c (Hin c Hc) Hc).
  Qed.

  Lemma dfs1_keep : forall fuel u h h' s, dfs1 fuel g u h = Ok (h', s) -> h_head h' = h_head h /\ h_pos h' = h_pos h /\ h_posr h' = h_posr h.
  Proof.
    induction fuel as [|fuel IH]; intros u h h' s E; [discriminate|]. cbn [dfs1] in E.
    apply rbind_ok_inv in E as (es & _ & E). apply rbind_ok_inv in E as ([[h1 s1] m1] & E1 & [= -> _]).
    enough (forall es h0 s0 m0, rfor es (dfs1_edge (dfs1 fuel g) u) (h0, s0, m0) = Ok (h', s1, m1) ->
      h_head h' = h_head h0 /\ h_pos h' = h_pos h0 /\ h_posr h' = h_posr h0) as H by eauto.
    clear E1 es. induction es as [|c es IHes]; intros h0 s0 m0 E; cbn [rfor] in E; [injection E as -> _ _; auto|].
    apply rbind_ok_inv in E as ([[h2 s2] m2] & E2 & E). apply IHes in E as (-> & -> & ->). unfold dfs1_edge in E2.
    apply rbind_ok_inv in E2 as (p & _ & E2). destruct (c =? p); [injection E2 as -> _ _; auto|].
    apply rbind_ok_inv in E2 as (pa & _ & E2). apply rbind_ok_inv in E2 as (du & _ & E2). apply rbind_ok_inv in E2 as (de & _ & E2).
    apply rbind_ok_inv in E2 as ([h3 s3] & E3 & E2). apply IH in E3. destruct (m0 <? s3).
    - apply rbind_ok_inv in E2 as (he & _ & [= <- _ _]). exact E3.
    - injection E2 as -> _ _. exact E3.
  Qed.

  (** *** dfs2 *)
  Section second.
    Context (pa da : list nat) (hva : list (option nat)) (hv : nat -> option nat).
    Context (Hpa : forall v, C v -> pa !! v = Some (par v)).
    Context (Hhva : forall v, C v -> hva !! v = Some (hv v)) (Hhv : forall v, C v -> heavy_ok v (hv v)).

    (** The head of the heavy path of v. *)
    Fixpoint headk (k v : nat) : nat := match k with O => v | S k => if decide (hv (par v) = Some v) then headk k (par v) else v end.
    Definition headf (v : nat) : nat := headk (dep v) v.
    Lemma head_root : headf root = root.
    Proof. unfold headf. rewrite (t_root_dep _ _ _ _ _ Ht). reflexivity. Qed.
    Lemma head_child u c : child u c -> headf c = if decide (hv u = Some c) then headf u else c.
    Proof. intros Hc. unfold headf. rewrite (child_dep _ _ _ _ _ Ht u c Hc). destruct Hc as (_ & _ & <-). reflexivity. Qed.

    Record hwf2 (h : hl) : Prop := {
      w2_wf : hwf h;
      w2_parent : h_parent h = pa;
      w2_dep : h_dep h = da;
      w2_heavy : h_heavy h = hva }.
    Definition same2 (h h' : hl) (v : nat) : Prop :=
      h_head h' !! v = h_head h !! v /\ h_pos h' !! v = h_pos h !! v /\ h_posr h' !! v = h_posr h !! v.
    Lemma same2_trans h1 h2 h3 v : same2 h1 h2 v -> same2 h2 h3 v -> same2 h1 h3 v.
    Proof. intros (A1 & A2 & A3) (B1 & B2 & B3). repeat split; congruence. Qed.
    Definition fin2 (h : hl) (t t' v : nat) : Prop :=
      h_head h !! v = Some (headf v) /\
      exists a o, h_pos h !! v = Some a /\ h_posr h !! v = Some o /\ t <= a /\ a < o /\ o <= t'.
    Definition nest2 (h : hl) (v w : nat) : Prop :=
      forall tv ov tw, h_pos h !! v = Some tv -> h_posr h !! v = Some ov -> h_pos h !! w = Some tw ->
        (tv <= tw < ov <-> anc v w) /\ (hv v = Some w -> tw = S tv).
    Lemma fin2_same h h' t t' v : same2 h h' v -> fin2 h t t' v -> fin2 h' t t' v.
    Proof. intros (A1 & A2 & A3) (D & a & o & H). unfold fin2. rewrite A1, A2, A3. eauto. Qed.
    Lemma fin2_mono h s s' t t' v : t <= s -> s' <= t' -> fin2 h s s' v -> fin2 h t t' v.
    Proof. intros H1 H2 (D & a & o & A1 & A2 & A3 & A4 & A5). split; [exact D|]. exists a, o. repeat split; auto; lia. Qed.
    Lemma nest2_same h h' v w : same2 h h' v -> same2 h h' w -> nest2 h v w -> nest2 h' v w.
    Proof. intros (A1 & A2 & A3) (B1 & B2 & B3) H tv ov tw. rewrite A2, A3, B2. apply H. Qed.

    Record dpost2 (u : nat) (h : hl) (t : nat) (h' : hl) (t' : nat) : Prop := {
      p2_wf : hwf2 h';
      p2_lt : t < t';
      p2_pos : h_pos h' !! u = Some t;
      p2_posr : h_posr h' !! u = Some t';
      p2_frame : forall v, ~ anc u v -> same2 h h' v;
      p2_fin : forall v, C v -> anc u v -> fin2 h' t t' v;
      p2_nest : forall v w, C v -> C w -> anc u v -> anc u w -> nest2 h' v w;
      p2_onto : forall i, t <= i < t' -> exists v, C v /\ anc u v /\ h_pos h' !! v = Some i }.

    (** Between two children of u; D: the children already visited. *)
    Record inv2 (u : nat) (h : hl) (t : nat) (D : nat -> Prop) (h1 : hl) (t1 : nat) : Prop := {
      i2_wf : hwf2 h1;
      i2_lt : t + 1 <= t1;
      i2_pos : h_pos h1 !! u = Some t;
      i2_head : h_head h1 !! u = Some (headf u);
      i2_frame : forall v, ~ anc u v -> same2 h h1 v;
      i2_first : (forall c, ~ D c) -> t1 = t + 1;
      i2_heavy : forall c, D c -> hv u = Some c -> h_pos h1 !! c = Some (t + 1);
      i2_fin : forall c v, D c -> child u c -> C v -> anc c v -> fin2 h1 (t + 1) t1 v;
      i2_nest : forall c c' v w, D c -> D c' -> child u c -> child u c' -> C v -> C w -> anc c v -> anc c' w -> nest2 h1 v w;
      i2_onto : forall i, t + 1 <= i < t1 -> exists c v, D c /\ child u c /\ C v /\ anc c v /\ h_pos h1 !! v = Some i }.

    Lemma inv2_child u h t D h1 t1 c h2 t2 : inv2 u h t D h1 t1 -> child u c -> ~ D c -> (hv u = Some c -> forall c, ~ D c) -> dpost2 c h1 t1 h2 t2 ->
      inv2 u h t (fun x => D x \/ x = c) h2 t2.
    Proof.
      intros [W L P Hd F Fst Hvy Fin Nst Ont] Hc Hn Hhvy [PW PL PP PR PF PFin PN PO].
      pose proof (child_not_anc _ _ _ _ _ Ht u c Hc) as Hnu.
      destruct (PF u Hnu) as (A1 & A2 & A3).
      assert (forall x v, D x -> child u x -> C v -> anc x v -> ~ anc c v) as Hdis.
      { intros x v Hx Hxc Hv Hxv Hcv. apply Hn. rewrite (child_disjoint _ _ _ _ _ Ht u c x v); auto. }
      split.
      - exact PW.
      - lia.
      - congruence.
      - congruence.
      - intros v Hv. eapply same2_trans; [apply F; exact Hv|]. apply PF. intros A. apply Hv. eapply anc_trans; [apply (child_anc C root par); exact Hc|exact A].
      - intros H. exfalso. apply (H c). auto.
      - intros x [Hx| ->] E.
        + assert (C u) as Hu by (destruct Hc as (Hcn & _ & <-); apply (par_lt _ _ _ _ _ Ht); exact Hcn).
          pose proof (Hhv u Hu) as Hh. rewrite E in Hh. destruct Hh as [Hh _]. destruct (PF x) as (_ & -> & _); [|apply Hvy; auto].
          eapply Hdis; eauto; [apply Hh|apply anc_refl].
        + rewrite PP, (Fst (Hhvy E)). reflexivity.
      - intros x v [Hx| ->] Hxc Hv Hxv.
        + apply (fin2_same h1); [apply PF; eauto|]. eapply fin2_mono; [| |eapply Fin; eauto]; lia.
        + eapply fin2_mono; [| |apply PFin; auto]; lia.
      - intros x x' v w Hx Hx' Hxc Hxc' Hv Hw Hxv Hxw.
        assert (x <> x' -> hv v <> Some w) as Hnh.
        { intros Hne E. pose proof (Hhv v Hv) as Hh. rewrite E in Hh. destruct Hh as [Hh _]. apply Hne. eapply (child_disjoint _ _ _ _ _ Ht u x x' w); eauto.
          eapply anc_trans; [exact Hxv|]. apply (child_anc C root par). exact Hh. }
        destruct Hx as [Hx|Hx]; destruct Hx' as [Hx'|Hx'].
        + apply (nest2_same h1); [apply PF; eauto|apply PF; eauto|]. exact (Nst x x' v w Hx Hx' Hxc Hxc' Hv Hw Hxv Hxw).
        + subst x'. intros tv ov tw E1 E2 E3'.
          destruct (Fin x v Hx Hxc Hv Hxv) as (_ & a & o & B1 & B2 & B3 & B4 & B5).
          destruct (PF v (Hdis x v Hx Hxc Hv Hxv)) as (_ & C1 & C2). destruct (PFin w Hw Hxw) as (_ & a' & o' & D1 & D2 & D3 & D4 & D5).
          split; [|intros E; exfalso; apply Hnh; [intros ->; contradiction|exact E]].
          split; [intros ?; exfalso; replace ov with o in * by congruence; replace tw with a' in * by congruence; lia|].
          intros A. exfalso. apply (Hdis x w Hx Hxc Hw); [|exact Hxw]. eapply anc_trans; eauto.
        + subst x. intros tv ov tw E1 E2 E3'.
          destruct (Fin x' w Hx' Hxc' Hw Hxw) as (_ & a & o & B1 & B2 & B3 & B4 & B5).
          destruct (PF w (Hdis x' w Hx' Hxc' Hw Hxw)) as (_ & C1 & C2). destruct (PFin v Hv Hxv) as (_ & a' & o' & D1 & D2 & D3 & D4 & D5).
          split; [|intros E; exfalso; apply Hnh; [intros <-; contradiction|exact E]].
          split; [intros ?; exfalso; replace tw with a in * by congruence; replace tv with a' in * by congruence; lia|].
          intros A. exfalso. apply (Hdis x' w Hx' Hxc' Hw Hxw). eapply anc_trans; eauto.
        + subst x x'. apply PN; auto.
      - intros i Hi. destruct (decide (i < t1)) as [Hlt|Hge].
        + destruct (Ont i ltac:(lia)) as (x & v & B1 & B2 & B3 & B4 & B5). exists x, v. destruct (PF v (Hdis x v B1 B2 B3 B4)) as (_ & C1 & _).
          rewrite C1. auto 10.
        + destruct (PO i ltac:(lia)) as (v & B1 & B2 & B3). exists c, v. auto 10.
    Qed.

    Lemma inv2_ext u h t D D' h1 t1 : (forall x, child u x -> (D x <-> D' x)) -> (forall x, D' x -> child u x) -> (forall x, D x -> child u x) ->
      inv2 u h t D h1 t1 -> inv2 u h t D' h1 t1.
    Proof.
      intros H HC HC' [W L P Hd F Fst Hvy Fin Nst Ont]. assert (forall x, D x <-> D' x) as HH.
      { intros x. split; intros Hx; apply H; auto. } split; auto.
      - intros Hn. apply Fst. intros c Hc. apply (Hn c). apply HH. exact Hc.
      - intros c Hc. apply Hvy. apply HH. exact Hc.
      - intros c v Hc. apply Fin. apply HH. exact Hc.
      - intros c c' v w Hc Hc'. apply (Nst c c'); apply HH; assumption.
      - intros i Hi. destruct (Ont i Hi) as (c & v & H1 & H2). exists c, v. rewrite <- HH. auto.
    Qed.

    Lemma dfs2_ok : forall fuel u h t, n < fuel + dep u -> C u -> hwf2 h ->
      exists h' t', dfs2 fuel g u (headf u) (h, t) = Ok (h', t') /\ dpost2 u h t h' t'.
    Proof.
      induction fuel as [|fuel IH]; intros u h t Hf Hu W; [pose proof (dep_lt _ _ _ _ _ Ht u Hu); lia|].
      cbn [dfs2]. pose proof W as [W1 W2 W3 W4]. rewrite (vset_ok (h_head h)) by (rewrite (hw_head _ W1); apply C_lt; exact Hu). cbn [mbind res_bind].
      rewrite (vset_ok (h_pos h)) by (rewrite (hw_pos _ W1); apply C_lt; exact Hu). cbn [mbind res_bind h_heavy].
      rewrite W4, (vget_ok _ _ _ (Hhva u Hu)). cbn [mbind res_bind].
      set (h0 := HL (h_parent h) (h_dep h) hva (<[u:=headf u]> (h_head h)) (<[u:=t]> (h_pos h)) (h_posr h)).
      assert (inv2 u h t (fun _ => False) h0 (t + 1)) as I0.
      { split.
        - split; [|exact W2|exact W3|reflexivity]. destruct W1. split; cbn; rewrite ?insert_length, <- ?W4; auto.
        - lia.
        - cbn. apply list_lookup_insert. rewrite (hw_pos _ W1). apply C_lt; exact Hu.
        - cbn. apply list_lookup_insert. rewrite (hw_head _ W1). apply C_lt; exact Hu.
        - intros v Hv. assert (v <> u) by (intros ->; apply Hv, anc_refl). repeat split; cbn; try reflexivity; apply list_lookup_insert_ne; auto.
        - auto.
        - intros c [].
        - intros c v [].
        - intros c c' v w [].
        - intros i Hi. lia. }
      assert (exists h1 t1, (match hv u with Some v => dfs2 fuel g v (headf u) (h0, t + 1) | None => Ok (h0, t + 1) end) = Ok (h1, t1) /\
        inv2 u h t (fun x => hv u = Some x) h1 t1) as (h1 & t1 & -> & I1).
      { pose proof (Hhv u Hu) as Hh. destruct (hv u) as [c|] eqn:Ec.
        - destruct Hh as [Hc _]. pose proof (head_child u c Hc) as Eh. rewrite decide_True in Eh by exact Ec. rewrite <- Eh.
          destruct (IH c h0 (t + 1)) as (h1 & t1 & E & P1); [rewrite (child_dep _ _ _ _ _ Ht u c Hc); lia|apply Hc|apply (i2_wf _ _ _ _ _ _ I0)|].
          exists h1, t1. split; [exact E|]. eapply inv2_ext; [| | |eapply (inv2_child u h t (fun _ => False) h0 (t + 1) c); eauto].
          + intros x _. cbn. split; [intros [[]| ->]; reflexivity|intros [= ->]; auto].
          + intros x [= ->]. exact Hc.
          + intros x [[]| ->]. exact Hc.
        - exists h0, (t + 1). split; [reflexivity|]. eapply inv2_ext; [| | |exact I0].
          + intros x _. split; [intros []|discriminate].
          + intros x. discriminate.
          + intros x []. }
      cbn [mbind res_bind]. destruct (lookup_lt_is_Some_2 g u (C_lt u Hu)) as [es Hes]. rewrite (vget_ok _ _ _ Hes). cbn [mbind res_bind].
      pose proof (t_nodup _ _ _ _ _ Ht u es Hu Hes) as Hnd.
      assert (forall x, hv u = Some x -> child u x) as Hhc.
      { intros x E. pose proof (Hhv u Hu) as Hh. rewrite E in Hh. apply Hh. }
      destruct (rfor_inv (fun done st => inv2 u h t (fun x => hv u = Some x \/ (child u x /\ x ∈ done)) st.1 st.2) es (dfs2_edge (dfs2 fuel g) u) (h1, t1)) as ([h2 t2] & E2 & I2).
      - eapply inv2_ext; [| | |exact I1]; cbn.
        + intros x _. split; [auto|]. intros [H|[_ H]]; [exact H|inversion H].
        + intros x [H|[H _]]; auto.
        + exact Hhc.
      - intros done c rest [h2 t2] Ees I2. cbn [fst snd] in *. unfold dfs2_edge. cbn [fst].
        assert (c ∈ es) as Hc by (rewrite Ees; apply elem_of_app; right; apply elem_of_list_here).
        pose proof (i2_wf _ _ _ _ _ _ I2) as W2'. rewrite (w2_parent _ W2'), (vget_ok _ _ _ (Hpa u Hu)). cbn [mbind res_bind].
        assert (forall D', (forall x, child u x -> (hv u = Some x \/ x ∈ done) <-> D' x) -> (forall x, D' x -> child u x) -> inv2 u h t D' h2 t2) as Hext.
        { intros D' H1 H2. eapply inv2_ext; [| | |exact I2]; cbn.
          - intros x Hx. rewrite <- (H1 x Hx). tauto.
          - exact H2.
          - intros x [H|[H _]]; auto. }
        destruct (c =? par u) eqn:Ecp.
        { apply Nat.eqb_eq in Ecp. eexists. split; [reflexivity|]. cbn [fst snd]. apply Hext.
          - intros x Hx. rewrite elem_of_app, elem_of_list_singleton. assert (x <> c); [|tauto]. intros ->. rewrite Ecp in Hx.
            apply (child_not_anc _ _ _ _ _ Ht u _ Hx). apply anc_par.
          - intros x [H|[H _]]; auto. }
        apply Nat.eqb_neq in Ecp. assert (child u c) as Hch by (apply (adj_children _ _ _ _ _ Ht u es c Hu Hes); auto).
        rewrite (w2_heavy _ W2'), (vget_ok _ _ _ (Hhva u Hu)). cbn [mbind res_bind].
        destruct (bool_decide (Some c = hv u)) eqn:Eb.
        { apply bool_decide_eq_true in Eb. eexists. split; [reflexivity|]. cbn [fst snd]. apply Hext.
          - intros x Hx. rewrite elem_of_app, elem_of_list_singleton. split; [tauto|]. intros [H|[_ [H| ->]]]; auto.
          - intros x [H|[H _]]; auto. }
        apply bool_decide_eq_false in Eb.
        assert (c ∉ done) as Hnin.
        { rewrite Ees in Hnd. apply NoDup_app in Hnd as (_ & Hnd & _). intros Hin. exact (Hnd c Hin ltac:(apply elem_of_list_here)). }
        pose proof (head_child u c Hch) as Eh. rewrite decide_False in Eh by (intros E; apply Eb; symmetry; exact E).
        destruct (IH c h2 t2) as (h3 & t3 & E & P3); [rewrite (child_dep _ _ _ _ _ Ht u c Hch); lia|apply Hch|exact W2'|].
        rewrite Eh in E. exists (h3, t3). split; [exact E|]. cbn [fst snd].
        eapply inv2_ext; [| | |eapply (inv2_child u h t _ h2 t2 c); [exact I2|exact Hch| | |exact P3]]; cbn.
        + intros x Hx. rewrite elem_of_app, elem_of_list_singleton. split; [|tauto]. intros [[H|H]| ->]; tauto.
        + intros x [H|[H _]]; auto.
        + intros x [[H|[H _]]| ->]; auto.
        + intros [H|[_ H]]; [apply Eb; symmetry; exact H|contradiction].
        + intros H. exfalso. apply Eb. symmetry. exact H.
      - rewrite E2. cbn [mbind res_bind]. cbn [fst snd] in I2.
        assert (forall c, child u c -> c ∈ es) as Hin.
        { intros c Hc. apply (adj_children _ _ _ _ _ Ht u es c Hu Hes). exact Hc. }
        destruct I2 as [W2' L P Hd F Fst Hvy Fin Nst Ont]. pose proof (w2_wf _ W2') as W2w.
        rewrite vset_ok by (rewrite (hw_posr _ W2w); apply C_lt; exact Hu). cbn [mbind res_bind].
        set (h3 := HL (h_parent h2) (h_dep h2) (h_heavy h2) (h_head h2) (h_pos h2) (<[u:=t2]> (h_posr h2))).
        exists h3, t2. split; [reflexivity|].
        assert (forall v, v <> u -> same2 h2 h3 v) as S3.
        { intros v Hv. repeat split; cbn. apply list_lookup_insert_ne. auto. }
        assert (h_posr h3 !! u = Some t2) as O3 by (apply list_lookup_insert; rewrite (hw_posr _ W2w); apply C_lt; exact Hu).
        assert (forall v, C v -> anc u v -> v = u \/ v <> u /\ exists c, (hv u = Some c \/ (child u c /\ c ∈ es)) /\ child u c /\ anc c v) as Hsp.
        { intros v Hv A. apply (anc_split _ _ _ _ _ Ht) in A as [->|(c & Hc & A)]; [left; reflexivity|right|exact Hv]. split.
          - intros ->. exact (child_not_anc _ _ _ _ _ Ht u c Hc A).
          - exists c. auto 10. }
        split.
        + destruct W2'. split; cbn; auto. destruct W2w. split; cbn; rewrite ?insert_length; auto.
        + lia.
        + exact P.
        + exact O3.
        + intros v Hv. eapply same2_trans; [apply F; exact Hv|]. apply S3. intros ->. apply Hv, anc_refl.
        + intros v Hv A. destruct (Hsp v Hv A) as [->|(Hne & c & H1 & H2 & H3)].
          * split; [exact Hd|]. exists t, t2. cbn [h_pos h3]. split; [exact P|]. split; [exact O3|]. lia.
          * apply (fin2_same h2); [apply S3; exact Hne|]. eapply fin2_mono; [| |eapply Fin; eauto]; lia.
        + intros v w Hv Hw Av Aw. destruct (Hsp v Hv Av) as [->|(Hne & c & H1 & H2 & H3)]; destruct (Hsp w Hw Aw) as [->|(Hne' & c' & H1' & H2' & H3')].
          * intros tv ov tw E3 E4 E5. rewrite O3 in E4. cbn in E3, E5. assert (tv = t /\ tw = t /\ ov = t2) as (-> & -> & ->) by (repeat split; congruence).
            split; [split; [auto|lia]|]. intros E. exfalso. exact (child_not_anc _ _ _ _ _ Ht u u (Hhc u E) (anc_refl par u)).
          * intros tv ov tw E3 E4 E5. rewrite O3 in E4. cbn in E3, E5.
            destruct (Fin c' w H1' H2' Hw H3') as (_ & a & o & A1 & A2 & A3 & A4 & A5).
            assert (tv = t /\ tw = a /\ ov = t2) as (-> & -> & ->) by (repeat split; congruence). split; [split; [auto|lia]|].
            intros E. assert (h_pos h2 !! w = Some (t + 1)) as E' by (apply Hvy; auto). rewrite E' in A1. injection A1 as <-. lia.
          * intros tv ov tw E3 E4 E5. cbn in E3, E5.
            destruct (Fin c v H1 H2 Hv H3) as (_ & a & o & A1 & A2 & A3 & A4 & A5).
            assert (tv = a /\ tw = t) as (-> & ->) by (split; congruence).
            assert (~ anc v u) as Hnvu by (intros A; apply (child_not_anc _ _ _ _ _ Ht u c H2); eapply anc_trans; eauto).
            split; [split; [lia|intros A; contradiction]|]. intros E. exfalso. apply Hnvu. pose proof (Hhv v Hv) as Hh. rewrite E in Hh. apply (child_anc C root par). apply Hh.
          * apply (nest2_same h2); [apply S3; exact Hne|apply S3; exact Hne'|]. exact (Nst c c' v w H1 H1' H2 H2' Hv Hw H3 H3').
        + intros i Hi. destruct (decide (i = t)) as [->|Hne].
          * exists u. split; [exact Hu|]. split; [apply anc_refl|exact P].
          * destruct (Ont i ltac:(lia)) as (c & v & B1 & B2 & B3 & B4 & B5). exists v. split; [exact B3|]. split; [|exact B5].
            eapply anc_trans; [apply (child_anc C root par); exact B2|exact B4].
    Qed.
  End second.

  (** *** The finished decomposition *)
  Record decomp (h : hl) (hv : nat -> option nat) (pos posr : nat -> nat) : Prop := {
    d_wf : hwf h;
    d_parent : forall v, C v -> h_parent h !! v = Some (par v);
    d_dep : forall v, C v -> h_dep h !! v = Some (dep v);
    d_head : forall v, C v -> h_head h !! v = Some (headf hv v);
    d_pos : forall v, C v -> h_pos h !! v = Some (pos v);
    d_posr : forall v, C v -> h_posr h !! v = Some (posr v);
    d_heavy : forall v, C v -> heavy_ok v (hv v);
    d_nest : forall v w, C v -> C w -> pos v <= pos w < posr v <-> anc v w;
    d_hpos : forall v w, C v -> hv v = Some w -> pos w = S (pos v);
    d_lt : forall v, C v -> pos v < m /\ posr v <= m;
    d_inj : forall v w, C v -> C w -> pos v = pos w -> v = w;
    d_onto : forall i, i < m -> exists v, C v /\ pos v = i;
    d_out : forall v, v < n -> ~ C v -> h_parent h !! v = Some 0 /\ h_dep h !! v = Some 0 /\ h_head h !! v = Some 0 /\ h_pos h !! v = Some 0 /\ h_posr h !! v = Some 0;
    d_pos_out : forall v, v < n -> ~ C v -> pos v = 0 }.

  Lemma hl_new_ok : exists h hv pos posr, hl_new g root = Ok h /\ decomp h hv pos posr.
  Proof.
    pose proof (t_root _ _ _ _ _ Ht) as Hr. unfold hl_new. rewrite vset_ok by (cbn; rewrite replicate_length; apply C_lt; exact Hr). cbn [mbind res_bind].
    set (h0 := HL _ _ _ _ _ _).
    destruct (dfs1_ok (S n) root h0) as (h1 & E1 & W1 & Fr1 & F1).
    - lia.
    - exact Hr.
    - split; cbn; rewrite ?insert_length, ?replicate_length; reflexivity.
    - cbn. rewrite list_lookup_insert by (rewrite replicate_length; apply C_lt; exact Hr). rewrite (t_root_par _ _ _ _ _ Ht). reflexivity.
    - cbn. rewrite (t_root_dep _ _ _ _ _ Ht). apply lookup_replicate. auto using C_lt.
    - intros v Hv _. cbn. apply lookup_replicate. auto using C_lt.
    - rewrite E1. cbn [mbind res_bind fst].
      assert (forall v, C v -> anc root v) as HA by (intros v Hv; apply (anc_root _ _ _ _ _ Ht); exact Hv).
      set (hv := fun v => default None (h_heavy h1 !! v)).
      assert (forall v, C v -> h_heavy h1 !! v = Some (hv v)) as H1.
      { intros v Hv. destruct (F1 v Hv (HA v Hv)) as (_ & _ & hc & E & _). unfold hv. rewrite E. reflexivity. }
      assert (forall v, C v -> heavy_ok v (hv v)) as H2.
      { intros v Hv. destruct (F1 v Hv (HA v Hv)) as (_ & _ & hc & E & H). unfold hv. rewrite E. exact H. }
      destruct (dfs2_ok (h_parent h1) (h_dep h1) (h_heavy h1) hv) with (fuel := S n) (u := root) (h := h1) (t := 0) as (h2 & t2 & E & P).
      + intros v Hv. apply F1; auto.
      + exact H1.
      + exact H2.
      + lia.
      + exact Hr.
      + split; auto.
      + rewrite head_root in E. rewrite E. cbn [mbind res_bind fst].
        destruct P as [PW PL PP PR PF PFin PN PO].
        exists h2, hv, (fun v => default 0 (h_pos h2 !! v)), (fun v => default 0 (h_posr h2 !! v)). split; [reflexivity|].
        pose proof (w2_wf _ _ _ _ PW) as W2.
        assert (forall v, C v -> h_pos h2 !! v = Some (default 0 (h_pos h2 !! v)) /\ h_posr h2 !! v = Some (default 0 (h_posr h2 !! v)) /\
          default 0 (h_pos h2 !! v) < default 0 (h_posr h2 !! v) <= t2) as HP.
        { intros v Hv. destruct (PFin v Hv (HA v Hv)) as (_ & a & o & A1 & A2 & A3 & A4 & A5). rewrite A1, A2. cbn. auto. }
        assert (forall v w, C v -> C w -> default 0 (h_pos h2 !! v) <= default 0 (h_pos h2 !! w) < default 0 (h_posr h2 !! v) <-> anc v w) as HN.
        { intros v w Hv Hw. destruct (HP v Hv) as (A1 & A2 & _). destruct (HP w Hw) as (B1 & _). apply (PN v w Hv Hw (HA v Hv) (HA w Hw) _ _ _ A1 A2 B1). }
        assert (forall v w, C v -> C w -> default 0 (h_pos h2 !! v) = default 0 (h_pos h2 !! w) -> v = w) as HI.
        { intros v w Hv Hw Eq. destruct (HP v Hv) as (_ & _ & A). destruct (HP w Hw) as (_ & _ & B).
          apply (anc_antisym _ _ _ _ _ Ht); auto; apply HN; auto; lia. }
        assert (t2 = m) as ->.
        { assert (map (fun v => default 0 (h_pos h2 !! v)) vs ≡ₚ seq 0 t2) as HPerm.
          { apply NoDup_Permutation.
            - change (map ?f ?l) with (f <$> l). apply NoDup_fmap_2_strong; [|exact Hvn].
              intros x y Hx Hy Exy. apply Hvs in Hx, Hy. apply HI; auto.
            - apply NoDup_seq.
            - intros i. rewrite elem_of_seq. split.
              + intros H. apply elem_of_list_fmap in H as (v & -> & Hv). apply Hvs in Hv. destruct (HP v Hv) as (_ & _ & A). lia.
              + intros Hi. destruct (PO i ltac:(lia)) as (v & Hv & _ & Ev). apply elem_of_list_fmap. exists v. rewrite Ev. split; [reflexivity|]. apply Hvs. exact Hv. }
          apply Permutation_length in HPerm. rewrite map_length, seq_length in HPerm. symmetry. exact HPerm. }
        split; auto.
        * intros v Hv. rewrite (w2_parent _ _ _ _ PW). apply F1; auto.
        * intros v Hv. rewrite (w2_dep _ _ _ _ PW). apply F1; auto.
        * intros v Hv. apply (PFin v Hv (HA v Hv)).
        * intros v Hv. apply HP. exact Hv.
        * intros v Hv. apply HP. exact Hv.
        * intros v w Hv E'. pose proof (H2 v Hv) as Hh. rewrite E' in Hh. destruct Hh as [(Hw & _) _].
          destruct (HP v Hv) as (A1 & A2 & _). destruct (HP w Hw) as (B1 & _). apply (PN v w Hv Hw (HA v Hv) (HA w Hw) _ _ _ A1 A2 B1). exact E'.
        * intros v Hv. destruct (HP v Hv) as (_ & _ & A). lia.
        * intros i Hi. destruct (PO i ltac:(lia)) as (v & Hv & _ & Ev). exists v. split; [exact Hv|]. rewrite Ev. reflexivity.
        * intros v Hv Hnv. pose proof (out_anc root v Hr Hnv) as Hna. destruct (Fr1 v Hna) as (A1 & A2 & _). destruct (PF v Hna) as (B1 & B2 & B3).
          rewrite (w2_parent _ _ _ _ PW), (w2_dep _ _ _ _ PW), A1, A2, B1, B2, B3.
          destruct (dfs1_keep _ _ _ _ _ E1) as (-> & -> & ->). assert (root <> v) by (intros ->; contradiction).
          cbn. rewrite list_lookup_insert_ne by assumption. rewrite !lookup_replicate_2 by assumption. auto.
        * intros v Hv Hnv. destruct (PF v (out_anc root v Hr Hnv)) as (_ & -> & _). destruct (dfs1_keep _ _ _ _ _ E1) as (_ & -> & _).
          cbn. rewrite lookup_replicate_2 by assumption. reflexivity.
  Qed.
End tree.
