(** Proof of src/graph/bipartite_matching.rs: augmenting paths and Koenig's argument. *)
From Verif Require Import Prelude ArraySpec MatchingModel MatchingSpec DijkstraProof.

Fixpoint unvisited (vis : list bool) : nat :=
  match vis with [] => 0 | b :: vis => (if b then 0 else 1) + unvisited vis end.

Lemma unvisited_insert vis u : vis !! u = Some false -> S (unvisited (<[u:=true]> vis)) = unvisited vis.
Proof.
  revert u. induction vis as [|b vis IH]; intros u H; [discriminate|]. destruct u as [|u]; cbn in H.
  - injection H as ->. reflexivity.
  - specialize (IH u H). change (<[S u:=true]> (b :: vis)) with (b :: <[u:=true]> vis). cbn [unvisited]. rewrite <- IH. lia.
Qed.

Definition vis_le (vis vis' : list bool) : Prop :=
  length vis' = length vis /\ (forall x, vis !! x = Some true -> vis' !! x = Some true).

Lemma vis_le_refl vis : vis_le vis vis.
Proof. split; auto. Qed.
Lemma vis_le_trans a b c : vis_le a b -> vis_le b c -> vis_le a c.
Proof. intros [H1 H2] [H3 H4]. split; [congruence|auto]. Qed.
Lemma vis_le_insert vis u : u < length vis -> vis_le vis (<[u:=true]> vis).
Proof.
  intros H. split; [apply insert_length|]. intros x Hx. destruct (decide (x = u)) as [->|Hne].
  - apply list_lookup_insert. exact H.
  - rewrite list_lookup_insert_ne by congruence. exact Hx.
Qed.
Lemma vis_le_unvisited vis vis' : vis_le vis vis' -> unvisited vis' <= unvisited vis.
Proof.
  unfold vis_le. revert vis'. induction vis as [|b vis IH]; intros [|b' vis'] [Hl H]; try discriminate; [reflexivity|].
  assert (IH' : unvisited vis' <= unvisited vis).
  { apply IH. split; [cbn in Hl; lia|]. intros x Hx. apply (H (S x)). exact Hx. }
  cbn [unvisited]. destruct b.
  - specialize (H 0 eq_refl). cbn in H. injection H as ->. exact IH'.
  - destruct b'; cbn; lia.
Qed.

Definition is_matched (l : list (option nat)) (i : nat) : bool := match l !! i with Some (Some _) => true | _ => false end.
(** Indices holding Some. *)
Definition matched (l : list (option nat)) : list nat := filter (fun i => is_matched l i = true) (seq 0 (length l)).

Lemma elem_of_matched l i : i ∈ matched l <-> exists y, l !! i = Some (Some y).
Proof.
  unfold matched. rewrite elem_of_list_filter, elem_of_seq. unfold is_matched. split.
  - intros [H _]. destruct (l !! i) as [[y|]|]; try discriminate. eauto.
  - intros [y H]. rewrite H. split; [reflexivity|]. apply lookup_lt_Some in H. lia.
Qed.
Lemma NoDup_matched l : NoDup (matched l).
Proof. apply NoDup_filter, NoDup_seq. Qed.

Section Matching.
  Context (n m : nat) (g : list (list nat)) (Hgn : length g = n).
  (** Some edge leads out of the right side: the only reason to panic. *)
  Definition bad : Prop := exists u es v, g !! u = Some es /\ v ∈ es /\ m <= v.

  (** l and r are inverse partial functions along edges of g. *)
  Record mok (l r : list (option nat)) : Prop := {
    mk_l : length l = n;
    mk_r : length r = m;
    mk_lr : forall x y, l !! x = Some (Some y) -> r !! y = Some (Some x);
    mk_rl : forall x y, r !! y = Some (Some x) -> l !! x = Some (Some y);
    mk_e : forall x y, l !! x = Some (Some y) -> exists es, g !! x = Some es /\ y ∈ es }.

  (** After a successful dfs from u: the same, except that u's old partner still points to u. *)
  Record aug (u : nat) (vis : list bool) (l r l' r' : list (option nat)) : Prop := {
    au_l : length l' = n;
    au_r : length r' = m;
    au_lr : forall x y, l' !! x = Some (Some y) -> r' !! y = Some (Some x);
    au_rl : forall x y, r' !! y = Some (Some x) -> l' !! x = Some (Some y) \/ (x = u /\ l !! u = Some (Some y));
    au_e : forall x y, l' !! x = Some (Some y) -> exists es, g !! x = Some es /\ y ∈ es;
    au_old : forall v0, l !! u = Some (Some v0) -> r' !! v0 = Some (Some u) /\ l' !! u <> Some (Some v0);
    au_dom : forall x, (exists y, l' !! x = Some (Some y)) <-> (exists y, l !! x = Some (Some y)) \/ x = u;
    au_vis : forall x, vis !! x = Some true -> l' !! x = l !! x }.

  (** After a failed dfs: every edge of a newly visited vertex leads to a matched vertex with visited partner. *)
  Definition closed_new (vis vis' : list bool) (r : list (option nat)) : Prop :=
    forall x es v, vis !! x = Some false -> vis' !! x = Some true -> g !! x = Some es -> v ∈ es ->
      exists w, r !! v = Some (Some w) /\ vis' !! w = Some true.

  Definition dfs_post (u : nat) (vis : list bool) (l r : list (option nat)) (x : bool * mst) : Prop :=
    let '(b, (vis', l', r')) := x in
    vis_le vis vis' /\
    if b then vis !! u = Some false /\ aug u vis l r l' r'
    else l' = l /\ r' = r /\ vis' !! u = Some true /\ closed_new vis vis' r.

  Lemma find_free_ok r es : length r = m ->
    (find_free r es = Panic /\ exists v, v ∈ es /\ m <= v) \/
    (exists v, find_free r es = Ok (Some v) /\ v ∈ es /\ r !! v = Some None) \/
    (find_free r es = Ok None /\ forall v, v ∈ es -> exists w, r !! v = Some (Some w)).
  Proof.
    intros Hr. induction es as [|v es IH]; cbn [find_free].
    - right. right. split; [reflexivity|]. intros v Hv. inversion Hv.
    - destruct (decide (v < m)) as [Hvm|Hvm].
      2: { left. rewrite vget_panic by lia. split; [reflexivity|]. exists v. split; [left|lia]. }
      destruct (lookup_lt_is_Some_2 r v) as [rv Hrv]; [rewrite Hr; exact Hvm|].
      rewrite (vget_ok _ _ _ Hrv). cbn [mbind res_bind]. destruct rv as [w|].
      + destruct IH as [(E & v' & Hin & Hn)|[(v' & E & Hin & Hn)|[E Hall]]].
        * left. split; [exact E|]. exists v'. split; [right; exact Hin|exact Hn].
        * right. left. exists v'. split; [exact E|]. split; [right; exact Hin|exact Hn].
        * right. right. split; [exact E|]. intros x [->|Hx]%elem_of_cons; eauto.
      + right. left. exists v. split; [reflexivity|]. split; [left|exact Hrv].
  Qed.

  (** Both successful cases: the matching (l1, r1) leaves v free apart from a stale partner w. *)
  Lemma take_edge_ok u v vis0 vis l r : mok l r -> vis0 !! u = Some false -> u < n -> v < m ->
    (exists es, g !! u = Some es /\ v ∈ es) -> r !! v = Some None ->
    exists l' r', take_edge u v (vis, l, r) = Ok (true, (vis, l', r')) /\ aug u vis0 l r l' r'.
  Proof.
    intros [H1 H2 H3 H4 H5] Hu Hun Hvm He Hr. unfold take_edge. rewrite !vset_ok by lia. cbn [mbind res_bind].
    eexists _, _. split; [reflexivity|].
    assert (Lu : <[u:=Some v]> l !! u = Some (Some v)) by (apply list_lookup_insert; lia).
    assert (Rv : <[v:=Some u]> r !! v = Some (Some u)) by (apply list_lookup_insert; lia).
    assert (Ln : forall x, x <> u -> <[u:=Some v]> l !! x = l !! x) by (intros; apply list_lookup_insert_ne; congruence).
    assert (Rn : forall y, y <> v -> <[v:=Some u]> r !! y = r !! y) by (intros; apply list_lookup_insert_ne; congruence).
    split.
    - rewrite insert_length. exact H1.
    - rewrite insert_length. exact H2.
    - intros x y Hx. destruct (decide (x = u)) as [->|Hne].
      + rewrite Lu in Hx. injection Hx as <-. exact Rv.
      + rewrite Ln in Hx by exact Hne. apply H3 in Hx. rewrite Rn; [exact Hx|]. intros ->. congruence.
    - intros x y Hy. destruct (decide (y = v)) as [->|Hne].
      + rewrite Rv in Hy. injection Hy as <-. left. exact Lu.
      + rewrite Rn in Hy by exact Hne. apply H4 in Hy. destruct (decide (x = u)) as [->|Hxu]; [right; auto|left; rewrite Ln by exact Hxu; exact Hy].
    - intros x y Hx. destruct (decide (x = u)) as [->|Hne].
      + rewrite Lu in Hx. injection Hx as <-. exact He.
      + rewrite Ln in Hx by exact Hne. apply H5. exact Hx.
    - intros v0 Hv0. pose proof (H3 _ _ Hv0) as Hr0. assert (v0 <> v) by (intros ->; congruence). split; [rewrite Rn by assumption; exact Hr0|].
      rewrite Lu. congruence.
    - intros x. destruct (decide (x = u)) as [->|Hne]; [rewrite Lu; split; [auto|eauto]|]. rewrite Ln by exact Hne. split; [auto|intros [?|?]; [assumption|contradiction]].
    - intros x Hx. apply Ln. intros ->. congruence.
  Qed.

  Lemma take_edge_aug u v w vis0 vis1 vis l r l1 r1 : mok l r -> vis0 !! u = Some false -> u < n -> v < m ->
    (exists es, g !! u = Some es /\ v ∈ es) -> r !! v = Some (Some w) -> vis1 !! u = Some true -> vis1 !! w = Some false -> vis_le vis0 vis1 -> aug w vis1 l r l1 r1 ->
    exists l' r', take_edge u v (vis, l1, r1) = Ok (true, (vis, l', r')) /\ aug u vis0 l r l' r'.
  Proof.
    intros [H1 H2 H3 H4 H5] Hu Hun Hvm He Hr Hu1 Hw1 Hvle [A1 A2 A3 A4 A5 A6 A7 A8]. unfold take_edge. rewrite !vset_ok by lia. cbn [mbind res_bind].
    eexists _, _. split; [reflexivity|].
    assert (Hwu : w <> u) by (intros ->; congruence).
    pose proof (H4 _ _ Hr) as Hlw. destruct (A6 v Hlw) as [Rw Lw].
    pose proof (A8 u Hu1) as Elu.
    assert (Lu : <[u:=Some v]> l1 !! u = Some (Some v)) by (apply list_lookup_insert; lia).
    assert (Rv : <[v:=Some u]> r1 !! v = Some (Some u)) by (apply list_lookup_insert; lia).
    assert (Ln : forall x, x <> u -> <[u:=Some v]> l1 !! x = l1 !! x) by (intros; apply list_lookup_insert_ne; congruence).
    assert (Rn : forall y, y <> v -> <[v:=Some u]> r1 !! y = r1 !! y) by (intros; apply list_lookup_insert_ne; congruence).
    split.
    - rewrite insert_length. exact A1.
    - rewrite insert_length. exact A2.
    - intros x y Hx. destruct (decide (x = u)) as [->|Hne].
      + rewrite Lu in Hx. injection Hx as <-. exact Rv.
      + rewrite Ln in Hx by exact Hne. pose proof (A3 _ _ Hx) as Hy. rewrite Rn; [exact Hy|]. intros ->. rewrite Rw in Hy. injection Hy as <-. contradiction.
    - intros x y Hy. destruct (decide (y = v)) as [->|Hne].
      + rewrite Rv in Hy. injection Hy as <-. left. exact Lu.
      + rewrite Rn in Hy by exact Hne. apply A4 in Hy as [Hy|[-> Hy]].
        * destruct (decide (x = u)) as [->|Hxu]; [right; split; [reflexivity|congruence]|left; rewrite Ln by exact Hxu; exact Hy].
        * congruence.
    - intros x y Hx. destruct (decide (x = u)) as [->|Hne].
      + rewrite Lu in Hx. injection Hx as <-. exact He.
      + rewrite Ln in Hx by exact Hne. apply A5. exact Hx.
    - intros v0 Hv0. pose proof (H3 _ _ Hv0) as Hr0. assert (v0 <> v) by (intros ->; congruence). split.
      + rewrite Rn by assumption. apply A3. rewrite Elu. exact Hv0.
      + rewrite Lu. congruence.
    - intros x. destruct (decide (x = u)) as [->|Hne]; [rewrite Lu; split; [auto|eauto]|]. rewrite Ln by exact Hne. rewrite A7. split.
      + intros [?| ->]; [auto|]. left. eauto.
      + intros [?|?]; [auto|contradiction].
    - intros x Hx. rewrite Ln by (intros ->; congruence). apply A8. apply Hvle. exact Hx.
  Qed.

  Lemma mdfs_ok fuel : forall u vis l r, unvisited vis < fuel -> mok l r -> length vis = n -> u < n ->
    (mdfs fuel g u (vis, l, r) = Panic /\ bad) \/ exists x, mdfs fuel g u (vis, l, r) = Ok x /\ dfs_post u vis l r x.
  Proof.
    induction fuel as [|fuel IH]; intros u vis l r Hf Hok Hlv Hu; [lia|].
    cbn [mdfs]. destruct (lookup_lt_is_Some_2 vis u) as [b Hb]; [lia|]. rewrite (vget_ok _ _ _ Hb). cbn [mbind res_bind].
    destruct b.
    { right. eexists. split; [reflexivity|]. cbn. split; [apply vis_le_refl|]. split; [reflexivity|]. split; [reflexivity|]. split; [exact Hb|]. intros x es v H1 H2. congruence. }
    rewrite vset_ok by lia. cbn [mbind res_bind]. destruct (lookup_lt_is_Some_2 g u) as [es Hes]; [lia|]. rewrite (vget_ok _ _ _ Hes). cbn [mbind res_bind].
    set (vis1 := <[u:=true]> vis).
    assert (Hle1 : vis_le vis vis1) by (apply vis_le_insert; lia).
    assert (Hu1 : vis1 !! u = Some true) by (apply list_lookup_insert; lia).
    assert (Hvn : forall x, x <> u -> vis1 !! x = vis !! x) by (intros; apply list_lookup_insert_ne; congruence).
    assert (Hf1 : unvisited vis1 < fuel) by (pose proof (unvisited_insert vis u Hb) as E; fold vis1 in E; lia).
    destruct (find_free_ok r es (mk_r _ _ Hok)) as [(-> & v & Hv & Hvm)|[(v & -> & Hv & Hrv)|[-> Hall]]]; cbn [mbind res_bind].
    { left. split; [reflexivity|]. exists u, es, v. auto. }
    { destruct (take_edge_ok u v vis vis1 l r Hok Hb Hu) as (l' & r' & E & A); [apply lookup_lt_Some in Hrv; rewrite (mk_r _ _ Hok) in Hrv; exact Hrv|eauto|exact Hrv|].
      right. rewrite E. eexists. split; [reflexivity|]. cbn. auto. }
    (* second loop *)
    assert (Hloop : forall rest done vis2, es = done ++ rest -> vis_le vis1 vis2 -> closed_new vis1 vis2 r ->
      (forall v, v ∈ done -> exists w, r !! v = Some (Some w) /\ vis2 !! w = Some true) ->
      (try_edges (mdfs fuel g) u rest (vis2, l, r) = Panic /\ bad) \/
      exists x, try_edges (mdfs fuel g) u rest (vis2, l, r) = Ok x /\ dfs_post u vis l r x).
    { induction rest as [|v rest IHr]; intros done vis2 Hsplit Hle2 Hcl Hdone; cbn [try_edges].
      - rewrite app_nil_r in Hsplit. subst done. right. eexists. split; [reflexivity|]. cbn. split; [eapply vis_le_trans; eassumption|].
        split; [reflexivity|]. split; [reflexivity|]. split; [apply Hle2; exact Hu1|].
        intros x es1 v Hx0 Hx Hes1 Hv. destruct (decide (x = u)) as [->|Hne].
        + rewrite Hes in Hes1. injection Hes1 as <-. apply Hdone. exact Hv.
        + eapply Hcl; try eassumption. rewrite Hvn by exact Hne. exact Hx0.
      - assert (Hv : v ∈ es) by (rewrite Hsplit; apply elem_of_app; right; left).
        destruct (Hall v Hv) as [w Hw]. cbn [snd]. rewrite (vget_ok _ _ _ Hw). cbn [mbind res_bind runwrap].
        pose proof (mk_rl _ _ Hok _ _ Hw) as Hlw. apply lookup_lt_Some in Hlw as Hwn. rewrite (mk_l _ _ Hok) in Hwn.
        destruct (IH w vis2 l r) as [[E Hbad]|([b [[vis3 l3] r3]] & E & Hle3 & P)]; [pose proof (vis_le_unvisited _ _ Hle2); lia|exact Hok|destruct Hle1, Hle2; congruence|exact Hwn|..].
        { left. rewrite E. auto. }
        rewrite E. cbn [mbind res_bind fst snd]. destruct b.
        + destruct P as [Hw2 A].
          destruct (take_edge_aug u v w vis vis2 vis3 l r l3 r3) as (l' & r' & E' & A'); try assumption; [apply lookup_lt_Some in Hw; rewrite (mk_r _ _ Hok) in Hw; exact Hw|eauto|apply Hle2; exact Hu1|eapply vis_le_trans; eassumption|].
          right. rewrite E'. eexists. split; [reflexivity|]. cbn. split; [|auto]. eapply vis_le_trans; [|exact Hle3]. eapply vis_le_trans; eassumption.
        + destruct P as (-> & -> & Hw3 & Hcl3).
          apply (IHr (done ++ [v])); [rewrite <- app_assoc; exact Hsplit|eapply vis_le_trans; eassumption| |].
          * intros x es1 v1 Hx0 Hx Hes1 Hv1. destruct (vis2 !! x) as [[]|] eqn:Ex.
            -- destruct (Hcl x es1 v1 Hx0 Ex Hes1 Hv1) as (w' & Hw' & Hvw'). exists w'. split; [exact Hw'|apply Hle3; exact Hvw'].
            -- eapply Hcl3; eassumption.
            -- apply lookup_lt_Some in Hx. destruct Hle3 as [Hl3 _]. rewrite Hl3 in Hx. apply lookup_lt_is_Some_2 in Hx as [? Hx]. congruence.
          * intros v1 [Hv1|Hv1]%elem_of_app.
            -- destruct (Hdone v1 Hv1) as (w' & Hw' & Hvw'). exists w'. split; [exact Hw'|apply Hle3; exact Hvw'].
            -- apply elem_of_list_singleton in Hv1 as ->. eauto. }
    apply (Hloop es [] vis1); [reflexivity|apply vis_le_refl| |].
    - intros x es1 v Hx0 Hx. congruence.
    - intros v Hv. inversion Hv.
  Qed.

  Lemma aug_mok u vis l r l' r' : l !! u = Some None -> aug u vis l r l' r' -> mok l' r'.
  Proof.
    intros Hu [A1 A2 A3 A4 A5 A6 A7 A8]. split; try assumption. intros x y Hy. apply A4 in Hy as [Hy|[-> Hy]]; [exact Hy|congruence].
  Qed.

  Lemma aug_matched u vis l r l' r' : mok l r -> l !! u = Some None -> aug u vis l r l' r' -> length (matched l') = S (length (matched l)).
  Proof.
    intros Hok Hu A. change (S (length (matched l))) with (length (u :: matched l)). apply Permutation_length.
    apply NoDup_Permutation; [apply NoDup_matched| |].
    - apply NoDup_cons. split; [|apply NoDup_matched]. rewrite elem_of_matched. intros [y Hy]. congruence.
    - intros x. rewrite elem_of_cons, !elem_of_matched. rewrite (au_dom _ _ _ _ _ _ A x). tauto.
  Qed.

  (** State after a round that started from (l0, r0) and handled the vertices below i. *)
  Definition round_inv (l0 r0 : list (option nat)) (i : nat) (s : bool * mst) : Prop :=
    let '(ok, (vis, l, r)) := s in
    length vis = n /\ mok l r /\
    if ok then length (matched l0) < length (matched l)
    else l = l0 /\ r = r0 /\ (forall x, x < i -> l !! x = Some None -> vis !! x = Some true) /\ closed_new (replicate n false) vis r.

  Lemma matched_le l : length l = n -> length (matched l) <= n.
  Proof.
    intros Hl. rewrite <- Hl. rewrite <- (seq_length (length l) 0). apply submseteq_length, NoDup_submseteq; [apply NoDup_matched|].
    intros x Hx. apply elem_of_list_filter in Hx. apply Hx.
  Qed.

  Lemma round_body_ok l0 r0 i s : i < n -> round_inv l0 r0 i s -> (round_body g i s = Panic /\ bad) \/ exists s', round_body g i s = Ok s' /\ round_inv l0 r0 (i + 1) s'.
  Proof.
    destruct s as [ok [[vis l] r]]. intros Hi (Hv & Hok & H). unfold round_body.
    destruct (lookup_lt_is_Some_2 l i) as [li Hli]; [rewrite (mk_l _ _ Hok); exact Hi|]. rewrite (vget_ok _ _ _ Hli). cbn [mbind res_bind].
    destruct li as [y|].
    { right. eexists. split; [reflexivity|]. cbn. split; [exact Hv|]. split; [exact Hok|]. destruct ok; [exact H|].
      destruct H as (E1 & E2 & H & Hc). split; [exact E1|]. split; [exact E2|]. split; [|exact Hc].
      intros x Hx Hlx. destruct (decide (x = i)) as [->|Hne]; [congruence|]. apply H; [lia|exact Hlx]. }
    destruct (mdfs_ok (S (length vis)) i vis l r) as [[E Hbad]|([b [[vis' l'] r']] & E & Hle & P)]; [|exact Hok|exact Hv|exact Hi|..].
    { assert (forall v, unvisited v <= length v) as Hu by (clear; induction v as [|b v IH]; cbn; [lia|destruct b; lia]). specialize (Hu vis). lia. }
    { left. rewrite E. auto. }
    right. rewrite E. cbn [mbind res_bind fst snd]. eexists. split; [reflexivity|]. cbn.
    assert (Hv' : length vis' = n) by (destruct Hle; congruence). split; [exact Hv'|].
    destruct b.
    - destruct P as [_ A]. split; [eapply aug_mok; eassumption|]. rewrite orb_true_r.
      pose proof (aug_matched _ _ _ _ _ _ Hok Hli A) as Hm. destruct ok; [lia|]. destruct H as (-> & _). lia.
    - destruct P as (-> & -> & Hvi & Hcl). split; [exact Hok|]. rewrite orb_false_r. destruct ok; [exact H|].
      destruct H as (E1 & E2 & H & Hc). split; [exact E1|]. split; [exact E2|]. split.
      + intros x Hx Hlx. destruct (decide (x = i)) as [->|Hne]; [exact Hvi|]. apply Hle, H; [lia|exact Hlx].
      + intros x es v Hx0 Hx Hes Hvx. destruct (vis !! x) as [[]|] eqn:Ex.
        * destruct (Hc x es v Hx0 Ex Hes Hvx) as (w & Hw & Hvw). exists w. split; [exact Hw|apply Hle; exact Hvw].
        * eapply Hcl; eassumption.
        * apply lookup_lt_Some in Hx. rewrite Hv', <- Hv in Hx. apply lookup_lt_is_Some_2 in Hx as [? Hx]. congruence.
  Qed.

  (** The final state: a visited set containing all unmatched left vertices, closed under alternating steps. *)
  Definition solved (s : mst) : Prop :=
    let '(vis, l, r) := s in
    length vis = n /\ mok l r /\ (forall x, x < n -> l !! x = Some None -> vis !! x = Some true) /\ closed_new (replicate n false) vis r.

  (** One round: an augmented matching, or the end. *)
  Lemma solve_turn vis1 l1 r1 : length vis1 = n -> mok l1 r1 ->
    (solve_step g (vis1, l1, r1) = Panic /\ bad) \/ exists o, solve_step g (vis1, l1, r1) = Ok o /\
      match o with
      | inl (vis2, l2, r2) => length vis2 = n /\ mok l2 r2 /\ length (matched l1) < length (matched l2)
      | inr s => solved s /\ s.1.2 = l1
      end.
  Proof.
    intros Hv1 Hok1. unfold solve_step. rewrite (mk_l _ _ Hok1).
    destruct (rfor_inv_p (fun dn => round_inv l1 r1 (length dn)) bad (range 0 n) (round_body g) (false, (replicate (length vis1) false, l1, r1)))
      as [[E Hbad]|([ok [[vis2 l2] r2]] & E & Hv2 & Hok2 & H2)].
    + cbn. rewrite replicate_length. split; [exact Hv1|]. split; [exact Hok1|]. split; [reflexivity|]. split; [reflexivity|]. split; [lia|].
      intros x es v _ Hx. apply lookup_replicate in Hx as [Hx _]. discriminate.
    + intros dn i rest s Hsp Hs. assert (i = length dn /\ i < n) as [-> Hi].
      { assert (range 0 n !! length dn = Some i) as Hx by (rewrite Hsp; apply list_lookup_middle; reflexivity).
        unfold range in Hx. apply lookup_seq in Hx. lia. }
      rewrite app_length. cbn [length]. apply round_body_ok; [exact Hi|exact Hs].
    + left. rewrite E. auto.
    + right. rewrite E. cbn [mbind res_bind fst snd]. unfold range in H2. rewrite seq_length, Nat.sub_0_r in H2. destruct ok.
      * eexists. split; [reflexivity|]. cbn beta iota. auto.
      * eexists. split; [reflexivity|]. destruct H2 as (-> & -> & H & Hc). cbn. auto.
  Qed.

  Lemma solve_loop vis l r : length vis = n -> mok l r ->
    (rloop (S (length l)) (solve_step g) (vis, l, r) = Panic /\ bad) \/ exists s, rloop (S (length l)) (solve_step g) (vis, l, r) = Ok s /\ solved s.
  Proof.
    intros Hv Hok.
    apply (rloop_inv_p (fun k '(vis, l, r) => length vis = n /\ mok l r /\ k = n - length (matched l)) solved bad) with (m := n - length (matched l)).
    - intros k [[vis1 l1] r1] (Hv1 & Hok1 & Hk). destruct (solve_turn vis1 l1 r1 Hv1 Hok1) as [H|([[[vis2 l2] r2]|s] & E & H)]; [left; exact H|right..].
      + destruct H as (Hv2 & Hok2 & H2). eexists. split; [exact E|]. exists (n - length (matched l2)). split; [|auto]. pose proof (matched_le l2 (mk_l _ _ Hok2)). lia.
      + eexists. split; [exact E|]. apply H.
    - auto.
    - rewrite (mk_l _ _ Hok). lia.
  Qed.

  Lemma count_loop l : rfor (range 0 (length l)) (fun i ret => li ← vget l i; Ok (match li with Some _ => ret + 1 | None => ret end)) 0
    = Ok (length (matched l)).
  Proof.
    destruct (rfor_range_inv (fun i ret => ret = length (filter (fun i => is_matched l i = true) (seq 0 i))) 0 (length l)
      (fun i ret => li ← vget l i; Ok (match li with Some _ => ret + 1 | None => ret end)) 0) as (k & E & Hk); [lia|reflexivity| |].
    - intros i ret Hi ->. destruct (lookup_lt_is_Some_2 l i) as [li Hli]; [lia|]. rewrite (vget_ok _ _ _ Hli). cbn [mbind res_bind].
      eexists. split; [reflexivity|]. rewrite (Nat.add_1_r i), seq_S, filter_app, app_length. cbn [plus].
      assert (Em : is_matched l i = match li with Some _ => true | None => false end) by (unfold is_matched; rewrite Hli; destruct li; reflexivity).
      destruct li.
      + rewrite filter_cons_True by exact Em. rewrite filter_nil. cbn [length]. lia.
      + rewrite filter_cons_False by (rewrite Em; discriminate). rewrite filter_nil. cbn [length]. lia.
    - unfold range. rewrite E, Hk. reflexivity.
  Qed.

  Context (E : list (nat * nat)) (HE : forall u v, (u, v) ∈ E <-> exists es, g !! u = Some es /\ v ∈ es).

  Definition pairs (l : list (option nat)) : list (nat * nat) :=
    map (fun i => (i, match l !! i with Some (Some y) => y | _ => 0 end)) (matched l).

  Lemma pairs_spec l x y : (x, y) ∈ pairs l <-> l !! x = Some (Some y).
  Proof.
    unfold pairs. rewrite elem_of_list_fmap. split.
    - intros (i & [= -> ->] & Hi). apply elem_of_matched in Hi as [z Hz]. rewrite Hz. reflexivity.
    - intros H. exists x. rewrite H. split; [reflexivity|]. apply elem_of_matched. eauto.
  Qed.

  Lemma pairs_matching l r : mok l r -> matching E (pairs l).
  Proof.
    intros Hok. split; [|split].
    - intros [x y] H. apply pairs_spec in H. apply HE, (mk_e _ _ Hok), H.
    - unfold pairs. rewrite <- list_fmap_compose. apply NoDup_fmap_2_strong; [|apply NoDup_matched]. intros x y _ _ Hxy. exact Hxy.
    - unfold pairs. rewrite <- list_fmap_compose. apply NoDup_fmap_2_strong; [|apply NoDup_matched].
      intros x y Hx Hy. apply elem_of_matched in Hx as [a Ha]. apply elem_of_matched in Hy as [b Hb]. cbn. rewrite Ha, Hb. intros ->.
      apply (mk_lr _ _ Hok) in Ha. apply (mk_lr _ _ Hok) in Hb. congruence.
  Qed.

  Lemma solved_max vis l r : solved (vis, l, r) -> forall M, matching E M -> length M <= length (matched l).
  Proof.
    intros (Hv & Hok & Hun & Hcl) M (HME & Hn1 & Hn2).
    set (f := fun e : nat * nat => if decide (vis !! e.1 = Some true) then match r !! e.2 with Some (Some w) => w | _ => 0 end else e.1).
    assert (Hedge : forall x y, (x, y) ∈ M -> vis !! x = Some true -> exists w, r !! y = Some (Some w) /\ vis !! w = Some true).
    { intros x y Hxy Hx. apply HME, HE in Hxy as (es & Hes & Hy). eapply Hcl; try eassumption.
      apply lookup_replicate_2. apply lookup_lt_Some in Hx. lia. }
    rewrite <- (map_length f M). apply submseteq_length, NoDup_submseteq.
    - apply NoDup_fmap_2_strong; [|apply (NoDup_fmap_1 fst); exact Hn1].
      intros [x y] [x' y'] H1 H2 Hf. unfold f in Hf. cbn [fst snd] in Hf.
      destruct (decide (vis !! x = Some true)) as [Hx|Hx], (decide (vis !! x' = Some true)) as [Hx'|Hx'].
      + destruct (Hedge _ _ H1 Hx) as (w & Hw & _). destruct (Hedge _ _ H2 Hx') as (w' & Hw' & _). rewrite Hw, Hw' in Hf. subst w'.
        apply (mk_rl _ _ Hok) in Hw. apply (mk_rl _ _ Hok) in Hw'. assert (y = y') as -> by congruence.
        clear -Hn2 H1 H2. apply elem_of_list_lookup in H1 as [i Hi]. apply elem_of_list_lookup in H2 as [j Hj].
        assert (i = j) as -> by (eapply NoDup_lookup; [exact Hn2|rewrite list_lookup_fmap, Hi; reflexivity|rewrite list_lookup_fmap, Hj; reflexivity]). congruence.
      + destruct (Hedge _ _ H1 Hx) as (w & Hw & Hvw). rewrite Hw in Hf. congruence.
      + destruct (Hedge _ _ H2 Hx') as (w & Hw & Hvw). rewrite Hw in Hf. congruence.
      + subst x'. clear -Hn1 H1 H2. apply elem_of_list_lookup in H1 as [i Hi]. apply elem_of_list_lookup in H2 as [j Hj].
        assert (i = j) as -> by (eapply NoDup_lookup; [exact Hn1|rewrite list_lookup_fmap, Hi; reflexivity|rewrite list_lookup_fmap, Hj; reflexivity]). congruence.
    - intros z Hz. apply elem_of_list_fmap in Hz as ([x y] & -> & Hxy). apply elem_of_matched. unfold f. cbn [fst snd].
      destruct (decide (vis !! x = Some true)) as [Hx|Hx].
      + destruct (Hedge _ _ Hxy Hx) as (w & Hw & _). rewrite Hw. exists y. apply (mk_rl _ _ Hok). exact Hw.
      + apply HME, HE in Hxy as (es & Hes & _). apply lookup_lt_Some in Hes. rewrite Hgn in Hes.
        destruct (l !! x) as [[y'|]|] eqn:El; [eauto|exfalso; apply Hx, Hun; assumption|].
        apply lookup_ge_None in El. rewrite (mk_l _ _ Hok) in El. lia.
  Qed.

  Lemma bm_solve_ok l r vis : length vis = n -> mok l r ->
    (bm_solve (BM g l r vis) = Panic /\ bad) \/
    exists l' r' vis', bm_solve (BM g l r vis) = Ok (BM g l' r' vis', length (matched l')) /\ length vis' = n /\ mok l' r' /\
      matching E (pairs l') /\ max_matching_size E (length (matched l')).
  Proof.
    intros Hv Hok. unfold bm_solve. cbn [bm_g bm_l bm_r bm_vis].
    destruct (solve_loop vis l r Hv Hok) as [[-> Hbad]|([[vis' l'] r'] & -> & Hs)]; [left; auto|right]. cbn [mbind res_bind]. rewrite count_loop. cbn [mbind res_bind].
    exists l', r', vis'. split; [reflexivity|]. pose proof Hs as (Hv' & Hok' & _). split; [exact Hv'|]. split; [exact Hok'|].
    pose proof (pairs_matching l' r' Hok') as HM. split; [exact HM|]. split.
    - exists (pairs l'). split; [exact HM|]. unfold pairs. apply map_length.
    - apply (solved_max vis' l' r' Hs).
  Qed.
End Matching.

Record binv (n m : nat) (E : list (nat * nat)) (b : bm) : Prop := {
  bi_n : length (bm_g b) = n;
  bi_E : forall u v, (u, v) ∈ E <-> exists es, bm_g b !! u = Some es /\ v ∈ es;
  bi_vis : length (bm_vis b) = n;
  bi_ok : mok n m (bm_g b) (bm_l b) (bm_r b) }.

(** The edges added by a history. *)
Definition edges_of (ops : list bm_op) : list (nat * nat) := omap (fun o => match o with BmEdge u v => Some (u, v) | BmSolve => None end) ops.

Lemma bm_history n m ops : forall E b, binv n m E b ->
  bm_allowed n m E ops (snd <$> run bm_step b ops) /\
  forall b' outs, run bm_step b ops = Ok (b', outs) -> binv n m (E ++ edges_of ops) b'.
Proof.
  induction ops as [|o ops IH]; intros E b Hb; cbn [run].
  - split; [constructor|]. intros b' outs [= <- <-]. cbn. rewrite app_nil_r. exact Hb.
  - destruct o as [u v|]; cbn [bm_step].
    + unfold bm_add_edge. destruct Hb as [B1 B3 B4 B5].
      destruct (decide (u < n)) as [Hu|Hu]; [|rewrite vget_panic by lia; cbn [mbind res_bind]; split; [apply ba_bad_edge; lia|discriminate]].
      destruct (lookup_lt_is_Some_2 (bm_g b) u) as [es Hes]; [lia|]. rewrite (vget_ok _ _ _ Hes). cbn [mbind res_bind].
      rewrite vset_ok by lia. cbn [mbind res_bind].
      set (g' := <[u:=es ++ [v]]> (bm_g b)).
      assert (Gu : g' !! u = Some (es ++ [v])) by (apply list_lookup_insert; lia).
      assert (Gn : forall x, x <> u -> g' !! x = bm_g b !! x) by (intros; apply list_lookup_insert_ne; congruence).
      destruct (IH (E ++ [(u, v)]) (BM g' (bm_l b) (bm_r b) (bm_vis b))) as (Ha & Hb').
      { split; cbn [bm_g bm_l bm_r bm_vis]; try assumption.
        - unfold g'. rewrite insert_length. exact B1.
        - intros x y. rewrite elem_of_app, elem_of_list_singleton, B3. destruct (decide (x = u)) as [->|Hne].
          + rewrite Gu. split.
            * intros [(es' & Hx & Hy)|[= ->]]; exists (es ++ [v]); (split; [reflexivity|]); apply elem_of_app; [left; congruence|right; left].
            * intros (es' & [= <-] & [Hy|Hy]%elem_of_app); [left; eauto|right; apply elem_of_list_singleton in Hy as ->; reflexivity].
          + rewrite Gn by exact Hne. split; [intros [?|[= -> _]]; [assumption|contradiction]|auto].
        - destruct B5 as [M1 M2 M3 M4 M5]. split; try assumption. intros x y Hx. destruct (M5 x y Hx) as (es' & Hes' & Hy).
          destruct (decide (x = u)) as [->|Hne]; [|rewrite Gn by exact Hne; eauto].
          exists (es ++ [v]). split; [exact Gu|]. apply elem_of_app. left. congruence. }
      apply (ba_edge n m E u v) in Ha; [|exact Hu].
      destruct (run bm_step _ ops) as [[b'' outs'']| |]; cbn in Ha |- *; (split; [exact Ha|]); try discriminate.
      intros b' outs [= <- <-]. specialize (Hb' _ _ eq_refl). rewrite <- app_assoc in Hb'. exact Hb'.
    + destruct Hb as [B1 B3 B4 B5]. destruct b as [g l r vis]. cbn [bm_g bm_l bm_r bm_vis] in *.
      destruct (bm_solve_ok n m g B1 E B3 l r vis B4 B5) as [[-> (u & es & v & Hes & Hin & Hm)]|(l' & r' & vis' & -> & Hv' & Hok' & HM & Hmax)]; cbn [mbind res_bind fst snd].
      { split; [|discriminate]. apply (ba_bad_solve n m E u v); [apply B3; eauto|exact Hm]. }
      destruct (IH E (BM g l' r' vis')) as (Ha & Hb'); [split; cbn; assumption|].
      apply (ba_solve n m E (length (matched l'))) in Ha; [|exact Hmax|].
      2: { exists (pairs l'). split; [exact HM|]. split; [apply map_length|]. intros [x y] Hxy. apply pairs_spec in Hxy. cbn [snd].
           apply (mk_lr _ _ _ _ _ Hok') in Hxy. apply lookup_lt_Some in Hxy. rewrite (mk_r _ _ _ _ _ Hok') in Hxy. exact Hxy. }
      destruct (run bm_step _ ops) as [[b'' outs'']| |]; cbn in Ha |- *; (split; [exact Ha|]); try discriminate.
      intros b' outs [= <- <-]. exact (Hb' _ _ eq_refl).
Qed.

Definition valid_op (n m : nat) (o : bm_op) : Prop := match o with BmEdge u v => u < n /\ v < m | BmSolve => True end.
Lemma bm_allowed_valid n m E ops r : Forall (valid_op n m) ops -> (forall u v, (u, v) ∈ E -> v < m) -> bm_allowed n m E ops r ->
  exists outs, r = Ok outs /\ bm_spec n m E ops outs.
Proof.
  intros Hv HE Ha. revert Hv HE. induction Ha as [E|E u v ops r Hu _ IH|E u v ops Hu|E k ops r Hk _ _ IH|E u v ops He Hm]; intros Hv HE;
    [|apply Forall_cons in Hv as [Ho Hv]..].
  - eexists. split; [reflexivity|constructor].
  - destruct Ho as [_ Hm]. destruct IH as (outs & -> & Hs); [exact Hv| |].
    + intros a b [Hab|Hab]%elem_of_app; [eapply HE; exact Hab|]. apply elem_of_list_singleton in Hab as [= -> ->]. exact Hm.
    + eexists. split; [reflexivity|]. constructor; assumption.
  - destruct Ho. lia.
  - destruct IH as (outs & -> & Hs); [exact Hv|exact HE|]. eexists. split; [reflexivity|]. constructor; assumption.
  - specialize (HE u v He). lia.
Qed.

Lemma bm_new_inv n m : binv n m [] (bm_new n m).
Proof.
  assert (H0 : forall u es v, replicate n ([] : list nat) !! u = Some es -> v ∈ es -> False).
  { intros u es v H Hv. apply lookup_replicate in H as [-> _]. inversion Hv. }
  assert (H1 : forall k x y, replicate k (@None nat) !! x = Some (Some y) -> False) by (intros k x y H; apply lookup_replicate in H as [H _]; discriminate).
  split; cbn.
  - apply replicate_length.
  - intros u v. split; [intros H; inversion H|]. intros (es & H & Hv). exfalso. eauto.
  - apply replicate_length.
  - split; [apply replicate_length|apply replicate_length|..]; intros x y H; exfalso; eauto.
Qed.
