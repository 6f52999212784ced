(** Property C86: the public BinaryLifting::dfs, called again by the user. *)
From Verif Require Import Prelude UtilModel UtilProof TreeSpec CompSpec LiftModel CompTree CompLift LiftDfsSpec LiftDfsProof CompProps.

(** C86: dfs(g, r, r, timer) makes the tree of r, rooted at r, the one that is answered for, whatever the structure held: for a
    structure made by from on any graph with as many vertices and any calls of dfs since, is_ancestor, lca and dis answer on
    the vertices r reaches as on the tree rooted at r.  The depths are distances from r on top of the depth that was stored at
    r; the times are those from timer on, one per vertex; nothing stored for other vertices changes. *)
Theorem C86_reroot : forall g r b t, bl_state (length g) b -> tree_at g r -> (Z.of_nat (length g) < 2 ^ 64)%Z ->
  exists d0 b' l, bl_dep b !! r = Some d0 /\ NoDup l /\ (forall v, v ∈ l <-> reached g r v) /\
  bl_dfs (S (length g)) g r r (b, t) = Ok (b', t + length l) /\ bl_state (length g) b' /\
  (forall u v, reached g r u -> reached g r v ->
     (exists a, bl_is_ancestor b' u v = Ok a /\ (a = true <-> ancestor g r u v)) /\
     (exists c, bl_lca b' u v = Ok c /\ reached g r c /\ is_lca g r u v c) /\
     (exists d, bl_dis b' u v = Ok d /\ is_dist g u v d)) /\
  (forall v, reached g r v -> exists d, bl_dep b' !! v = Some (d0 + d) /\ is_dist g r v d) /\
  (forall v, reached g r v -> exists i o, bl_tin b' !! v = Some i /\ bl_tout b' !! v = Some o /\ t <= i < o /\ o <= t + length l) /\
  bl_tin b' !! r = Some t /\ bl_tout b' !! r = Some (t + length l) /\
  (forall v, ~ reached g r v -> bl_pa b' !! v = bl_pa b !! v /\ bl_dep b' !! v = bl_dep b !! v /\
     bl_tin b' !! v = bl_tin b !! v /\ bl_tout b' !! v = bl_tout b !! v).
Proof.
  intros g r b t S T Hn. pose proof (ta_root _ _ T) as Hr. pose proof (state_shape g b ltac:(lia) Hn S) as W.
  destruct (lookup_lt_is_Some_2 (bl_dep b) r) as [d0 D0]; [rewrite (w_dep _ _ _ W); exact Hr|].
  destruct (tree_ctree g r T) as (par & dep & Ht). pose proof (levels_pos (length g)) as Hl. pose proof (levels_pow (length g) ltac:(lia)) as Hp.
  destruct (dfs_walked g _ r par dep Ht (levels (length g)) Hl Hp d0 b t W D0) as (b' & t' & E & K & F & l & Nl & Il & ->).
  exists d0, b', l. split; [exact D0|]. split; [exact Nl|]. split; [exact Il|]. split; [exact E|]. split; [eapply bs_dfs; eauto|].
  destruct (walked_answers g r par dep _ d0 t _ b' Ht Hl Hp K) as [A1 A2]. split; [exact A1|]. split; [exact A2|]. split; [|split; [exact (k_tin _ _ _ _ _ _ _ _ _ _ K)|split; [exact (k_tout _ _ _ _ _ _ _ _ _ _ K)|exact F]]].
  intros v Hv. destruct (k_fin _ _ _ _ _ _ _ _ _ _ K v Hv) as (_ & _ & i & o & H1 & H2 & H3 & H4 & H5). exists i, o. auto.
Qed.
Print Assumptions C86_reroot.

(** One structure for a forest: from for one root, then dfs for a root of each further tree with one running timer that starts
    no lower than the number of vertices of the first tree.  Within a tree the answers are those of the tree; vertices of
    different trees are never ancestors of each other; lca of two of them is the root of the first one's tree, and dis is the
    sum of the two depths. *)
Theorem C86_forest : forall g r0 rs t0 l0, (Z.of_nat (length g) < 2 ^ 64)%Z -> NoDup (r0 :: rs) -> (forall r, r ∈ r0 :: rs -> tree_at g r) ->
  (forall r r', r ∈ r0 :: rs -> r' ∈ r0 :: rs -> r <> r' -> ~ reached g r r') ->
  (forall v, reached g r0 v -> v ∈ l0) -> length l0 <= t0 ->
  exists b T, forest g r0 rs t0 = Ok (b, T) /\
  (forall r u v, r ∈ r0 :: rs -> reached g r u -> reached g r v ->
     (exists a, bl_is_ancestor b u v = Ok a /\ (a = true <-> ancestor g r u v)) /\
     (exists c, bl_lca b u v = Ok c /\ reached g r c /\ is_lca g r u v c) /\
     (exists d, bl_dis b u v = Ok d /\ is_dist g u v d)) /\
  (forall r v, r ∈ r0 :: rs -> reached g r v -> exists d, bl_dep b !! v = Some d /\ is_dist g r v d) /\
  (forall r r' u v, r ∈ r0 :: rs -> r' ∈ r0 :: rs -> r <> r' -> reached g r u -> reached g r' v ->
     bl_is_ancestor b u v = Ok false /\ bl_lca b u v = Ok r /\
     exists d d', bl_dis b u v = Ok (d + d') /\ is_dist g r u d /\ is_dist g r' v d').
Proof.
  intros g r0 rs t0 l0 Hn N Tr Ap L0 Ht0. assert (0 < length g) as H0 by (pose proof (ta_root _ _ (Tr r0 ltac:(apply elem_of_list_here))); lia).
  destruct (forest_ok g Hn H0 r0 rs t0 l0 N Tr Ap L0 Ht0) as (b & T & P & D & s & e & E & [W F A _]). exists b, T. split; [exact E|].
  pose proof (levels_pos (length g)) as Hl. pose proof (levels_pow (length g) H0) as Hp.
  assert (forall r v, r ∈ r0 :: rs -> reached g r v -> is_dist g r v (D r v)) as HD.
  { intros r v Hr Hv. destruct (F r Hr) as (Ht & K & _). destruct (proj2 (walked_answers g r (P r) (D r) _ 0 _ _ b Ht Hl Hp K) v Hv) as (d & E1 & Hd).
    rewrite (k_dep _ _ _ _ _ _ _ _ _ _ K v Hv) in E1. injection E1 as <-. exact Hd. }
  split; [|split].
  - intros r u v Hr Hu Hv. destruct (F r Hr) as (Ht & K & _). exact (proj1 (walked_answers g r (P r) (D r) _ 0 _ _ b Ht Hl Hp K) u v Hu Hv).
  - intros r v Hr Hv. destruct (F r Hr) as (Ht & K & _). exact (proj2 (walked_answers g r (P r) (D r) _ 0 _ _ b Ht Hl Hp K) v Hv).
  - intros r r' u v Hr Hr' Hne Hu Hv. destruct (F r Hr) as (Ht & K & _). destruct (F r' Hr') as (Ht' & K' & _). pose proof (A r r' Hr Hr' Hne) as Hap.
    pose proof (cross_anc g (levels (length g)) Hl Hp b r _ (P r) (D r) (s r) (e r) K r' _ (P r') (D r') (s r') (e r') K' Hap u v Hu Hv) as [X1 _].
    pose proof (cross_lca g (levels (length g)) Hl Hp b r _ (P r) (D r) Ht (s r) (e r) K r' _ (P r') (D r') (s r') (e r') K' Hap u v Hu Hv) as X2.
    pose proof (cross_dis g (levels (length g)) Hl Hp b r _ (P r) (D r) Ht (s r) (e r) K r' _ (P r') (D r') (s r') (e r') K' Hap u v Hu Hv) as X3.
    split; [exact X1|]. split; [exact X2|]. exists (D r u), (D r' v). split; [exact X3|]. auto.
Qed.
Print Assumptions C86_forest.

(** The running timer is needed: with the timer started at 0 again, the root of the first tree counts as an ancestor of the root of
    the second. *)
Theorem C86_restarted_timer : forall g r0 r, (Z.of_nat (length g) < 2 ^ 64)%Z -> tree_at g r0 -> tree_at g r -> ~ reached g r0 r ->
  exists b T, forest g r0 [r] 0 = Ok (b, T) /\ bl_is_ancestor b r0 r = Ok true.
Proof.
  intros g r0 r Hn T0 T1 Hnr. destruct (tree_ctree g r0 T0) as (p0 & d0 & Ht0). pose proof (ta_root _ _ T0) as Hr0.
  destruct (from_ok g _ r0 p0 d0 Ht0 Hn) as (b & E & [[t' K] Out]).
  destruct (C86_reroot g r b 0) as (dd & b' & l & _ & _ & Il & E1 & _ & _ & _ & _ & Tr & _ & Fr); [econstructor; eauto|exact T1|exact Hn|].
  exists b', (0 + length l). split; [unfold forest; rewrite E; cbn [mbind res_bind rfor]; rewrite E1; reflexivity|].
  assert (~ reached g r r0) as Hn'.
  { intros H. apply Hnr. apply (share g r0 r r0 T1); [apply root_reached|exact H]. }
  destruct (Fr r0 Hn') as (_ & _ & F1 & F2).
  assert (t' <> 0) as Hpos.
  { destruct (k_fin _ _ _ _ _ _ _ _ _ _ K r0 (root_reached g r0)) as (_ & _ & a & o & _ & _ & ? & ? & ?). lia. }
  unfold bl_is_ancestor. rewrite (vget_ok _ _ _ Tr). cbn [mbind res_bind].
  rewrite (k_tin _ _ _ _ _ _ _ _ _ _ K) in F1. rewrite (k_tout _ _ _ _ _ _ _ _ _ _ K) in F2.
  rewrite (vget_ok _ _ _ F1). cbn [mbind res_bind Nat.leb]. rewrite (vget_ok _ _ _ F2). cbn [mbind res_bind]. f_equal. apply Nat.ltb_lt. lia.
Qed.
Print Assumptions C86_restarted_timer.

(** Two trees, the path 0 - 1 - 2 and the edge 3 - 4; and the path rerooted at 2. *)
Definition two_trees : list (list nat) := [[1]; [0; 2]; [1]; [4]; [3]].
Example C86_nonvacuous : tree_at two_trees 0 /\ tree_at two_trees 3 /\ tree_at two_trees 2 /\ ~ reached two_trees 0 3 /\ ~ reached two_trees 3 0 /\
  (forall v, reached two_trees 0 v -> v ∈ [0; 1; 2]) /\
  (st ← forest two_trees 0 [3] 3; bl_is_ancestor st.1 0 4) = Ok false /\
  (st ← forest two_trees 0 [3] 0; bl_is_ancestor st.1 0 3) = Ok true /\
  (st ← forest two_trees 0 [3] 3; bl_lca st.1 2 4) = Ok 0 /\ (st ← forest two_trees 0 [3] 3; bl_dis st.1 2 4) = Ok 3 /\
  (st ← forest two_trees 0 [3; 2] 3; bl_is_ancestor st.1 1 0) = Ok true /\ (st ← forest two_trees 0 [3; 2] 3; bl_lca st.1 0 1) = Ok 1 /\
  (st ← forest two_trees 0 [3; 2] 3; Ok (bl_dep st.1)) = Ok [4; 3; 2; 0; 1].
Proof.
  assert (ctree two_trees (fun v => v < 3) 0 (fun v => v - 1) (fun v => v)) as H0.
  { split; cbn [two_trees length].
    - lia.
    - lia.
    - reflexivity.
    - reflexivity.
    - intros v Hv Hne. lia.
    - intros u es Hu Hes. do 5 (destruct u as [|u]; [injection Hes as <-; repeat constructor; rewrite ?elem_of_cons, ?elem_of_nil; lia|]). discriminate.
    - intros u es v Hu Hes.
      do 3 (destruct u as [|u]; [injection Hes as <-; rewrite ?elem_of_cons, ?elem_of_nil; do 5 (destruct v as [|v]; [cbn; lia|]); cbn; lia|]). lia. }
  assert (ctree two_trees (fun v => v < 3) 2 (fun v => Nat.min (v + 1) 2) (fun v => 2 - v)) as H2.
  { split; cbn [two_trees length].
    - lia.
    - lia.
    - reflexivity.
    - reflexivity.
    - intros v Hv Hne. lia.
    - intros u es Hu Hes. do 5 (destruct u as [|u]; [injection Hes as <-; repeat constructor; rewrite ?elem_of_cons, ?elem_of_nil; lia|]). discriminate.
    - intros u es v Hu Hes.
      do 3 (destruct u as [|u]; [injection Hes as <-; rewrite ?elem_of_cons, ?elem_of_nil; do 5 (destruct v as [|v]; [cbn; lia|]); cbn; lia|]). lia. }
  assert (ctree two_trees (fun v => 3 <= v < 5) 3 (fun v => 3) (fun v => v - 3)) as H3.
  { split; cbn [two_trees length].
    - lia.
    - lia.
    - reflexivity.
    - reflexivity.
    - intros v Hv Hne. lia.
    - intros u es Hu Hes. do 5 (destruct u as [|u]; [injection Hes as <-; repeat constructor; rewrite ?elem_of_cons, ?elem_of_nil; lia|]). discriminate.
    - intros u es v Hu Hes.
      do 5 (destruct u as [|u]; [injection Hes as <-; rewrite ?elem_of_cons, ?elem_of_nil; do 5 (destruct v as [|v]; [cbn; lia|]); cbn; lia|]). lia. }
  split; [exact (ctree_tree _ _ _ _ _ H0)|]. split; [exact (ctree_tree _ _ _ _ _ H3)|]. split; [exact (ctree_tree _ _ _ _ _ H2)|].
  split; [|split; [|split; [|vm_compute; auto 10]]].
  - intros [l Hl]. pose proof (walk_in _ _ _ _ _ H0 0 3 l Hl ltac:(cbn; lia)) as H. cbn in H. lia.
  - intros [l Hl]. pose proof (walk_in _ _ _ _ _ H3 3 0 l Hl ltac:(cbn; lia)) as H. cbn in H. lia.
  - intros v [l Hl]. pose proof (walk_in _ _ _ _ _ H0 0 v l Hl ltac:(cbn; lia)) as H. cbn in H. rewrite !elem_of_cons. lia.
Qed.
