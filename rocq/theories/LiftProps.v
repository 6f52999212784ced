(** Binary lifting: main theorems. *)
From Verif Require Import Prelude UtilModel UtilProof TreeSpec TreeProof LiftModel LiftProof.

(** The queries of one structure built from a tree; all later theorems are about the same b. *)
Definition lift_ok (g : list (list nat)) (root : nat) (P : bl -> Prop) : Prop :=
  is_tree g -> root < length g -> (Z.of_nat (length g) < 2 ^ 64)%Z -> exists b, bl_from g root = Ok b /\ P b.

(** C20: is_ancestor(u, v) holds exactly when every walk from the root to v visits u. *)
Theorem C20_is_ancestor : forall g root, lift_ok g root (fun b =>
  forall u v, u < length g -> v < length g ->
  exists r, bl_is_ancestor b u v = Ok r /\ (r = true <-> ancestor g root u v)).
Proof.
  intros g root T Hr Hn. destruct (tree_rtree g T root Hr) as (par & dep & R). destruct (from_ok g root par dep R Hn) as (b & lv & E & H1 & H2 & B).
  exists b. split; [exact E|]. intros u v Hu Hv. destruct (is_anc_ok g par dep lv H1 H2 b B u v Hu Hv) as (r & E1 & E2).
  exists r. split; [exact E1|]. rewrite E2. symmetry. eapply ancestor_iff; eauto.
Qed.
Print Assumptions C20_is_ancestor.

(** C21: lca(u, v) is the lowest common ancestor. *)
Theorem C21_lca : forall g root, lift_ok g root (fun b =>
  forall u v, u < length g -> v < length g ->
  exists l, bl_lca b u v = Ok l /\ l < length g /\ is_lca g root u v l).
Proof.
  intros g root T Hr Hn. destruct (tree_rtree g T root Hr) as (par & dep & R). destruct (from_ok g root par dep R Hn) as (b & lv & E & H1 & H2 & B).
  exists b. split; [exact E|]. intros u v Hu Hv. destruct (lca_ok g root par dep R lv H1 H2 b B u v Hu Hv) as (l & E1 & E2 & E3).
  exists l. split; [exact E1|]. split; [exact E2|]. eapply is_lca_iff; eauto.
Qed.
Print Assumptions C21_lca.

(** C22: dis(u, v) is the length of a shortest walk. *)
Theorem C22_dis : forall g root, lift_ok g root (fun b =>
  forall u v, u < length g -> v < length g ->
  exists d, bl_dis b u v = Ok d /\ is_dist g u v d).
Proof.
  intros g root T Hr Hn. destruct (tree_rtree g T root Hr) as (par & dep & R). destruct (from_ok g root par dep R Hn) as (b & lv & E & H1 & H2 & B).
  exists b. split; [exact E|]. intros u v Hu Hv. eapply dis_ok; eauto.
Qed.
Print Assumptions C22_dis.

(** C55: the public tables: dep[v] is the distance from the root; pa[v][i] is the vertex 2^i steps closer to the root on the way
    from v, or the root if there are fewer steps. *)
Theorem C55_tables : forall g root, lift_ok g root (fun b =>
  (forall v, v < length g -> exists d, bl_dep b !! v = Some d /\ is_dist g root v d) /\
  (forall v i, v < length g -> i < bl_level b -> exists row w d, bl_pa b !! v = Some row /\ row !! i = Some w /\
     bl_dep b !! v = Some d /\ w < length g /\ ancestor g root w v /\
     (2 ^ i <= d -> is_dist g w v (2 ^ i)) /\ (d <= 2 ^ i -> w = root)) /\
  length g < 2 ^ bl_level b).
Proof.
  intros g root T Hr Hn. destruct (tree_rtree g T root Hr) as (par & dep & R). destruct (from_ok g root par dep R Hn) as (b & lv & E & H1 & H2 & B).
  exists b. split; [exact E|]. assert (bl_level b = lv) as El by apply (b_wf _ _ _ _ _ B).
  assert (forall w v, w < length g -> v < length g -> anc par w v -> is_dist g w v (dep v - dep w)) as Hd.
  { intros w v Hw Hv A. replace (dep v - dep w) with (dep w + dep v - 2 * dep w) by (pose proof (anc_dep _ _ _ _ R w v Hv A); lia).
    eapply dist_ok; eauto. apply lcap_anc. exact A. }
  split; [|split].
  - intros v Hv. exists (dep v). split; [eapply b_dep; eauto|]. specialize (Hd root v Hr Hv (anc_root _ _ _ _ R v Hv)).
    rewrite (t_root_dep _ _ _ _ R), Nat.sub_0_r in Hd. exact Hd.
  - intros v i Hv Hi. rewrite El in Hi. destruct (b_pa _ _ _ _ _ B v Hv) as (row & R1 & R2).
    exists row, (up par (2 ^ i) v), (dep v). split; [exact R1|]. split; [apply R2; exact Hi|]. split; [eapply b_dep; eauto|].
    assert (up par (2 ^ i) v < length g) as Hw by (eapply up_lt; eauto).
    split; [exact Hw|]. split; [eapply ancestor_iff; eauto; apply anc_up|]. split.
    + intros Hle. specialize (Hd _ v Hw Hv (anc_up par (2 ^ i) v)). rewrite (dep_up _ _ _ _ R) in Hd by exact Hv.
      replace (dep v - (dep v - 2 ^ i)) with (2 ^ i) in Hd by lia. exact Hd.
    + intros Hle. eapply up_high; eauto.
  - rewrite El. exact H2.
Qed.
Print Assumptions C55_tables.

(** A root out of range, and queries with a vertex out of range, panic. *)
Theorem C20_panics : forall g root,
  ((Z.of_nat (length g) < 2 ^ 64)%Z -> length g <= root -> bl_from g root = Panic) /\
  lift_ok g root (fun b => forall u v, length g <= u \/ length g <= v ->
    bl_is_ancestor b u v = Panic /\ bl_lca b u v = Panic /\ bl_dis b u v = Panic).
Proof.
  intros g root. split.
  - intros Hn Hr. unfold bl_from. destruct (decide (length g = 0)) as [E|E]; [rewrite E; reflexivity|].
    rewrite lg_spec by lia. cbn [mbind res_bind bl_dfs bl_enter bl_tin]. rewrite vset_panic by (rewrite replicate_length; exact Hr). reflexivity.
  - intros T Hr Hn. destruct (tree_rtree g T root Hr) as (par & dep & R). destruct (from_ok g root par dep R Hn) as (b & lv & E & H1 & H2 & B).
    exists b. split; [exact E|]. intros u v Huv. destruct (b_wf _ _ _ _ _ B) as [W1 W2 W3 W4 W5 W6].
    assert (bl_is_ancestor b u v = Panic) as Ea.
    { unfold bl_is_ancestor. destruct (decide (length g <= v)) as [Hv|Hv]; [rewrite (vget_panic (bl_tin b) v) by lia; reflexivity|].
      destruct (vget_lt (bl_tin b) v) as (tv & -> & _); [lia|]. cbn [mbind res_bind]. rewrite (vget_panic (bl_tin b) u) by lia. reflexivity. }
    unfold bl_dis, bl_lca. rewrite Ea. auto.
Qed.
Print Assumptions C20_panics.

(** A tree on 7 vertices, with adjacency lists in mixed order, and the queries on it rooted at 3. *)
Definition ex_tree : list (list nat) := [[2; 1]; [0]; [4; 0; 3]; [2]; [5; 2; 6]; [4]; [4]].
Lemma ex_tree_ok : is_tree ex_tree.
Proof.
  apply (rtree_tree ex_tree 3 (fun v => nth v [2; 0; 3; 3; 2; 4; 4] 0) (fun v => nth v [2; 3; 1; 0; 2; 3; 3] 0)). split; [cbn; lia|reflexivity|reflexivity| | |].
  - intros v Hv Hne. do 7 (destruct v as [|v]; [cbn; lia|]). cbn in Hv. lia.
  - intros u es Hes. do 7 (destruct u as [|u]; [injection Hes as <-; apply (bool_decide_unpack _); vm_compute; exact I|]). discriminate.
  - intros u es v Hes. do 7 (destruct u as [|u]; [injection Hes as <-; rewrite !elem_of_cons, elem_of_nil; do 7 (destruct v as [|v]; [cbn; lia|]); cbn; lia|]).
    discriminate.
Qed.
Example C20_nonvacuous : is_tree ex_tree /\
  (b ← bl_from ex_tree 3; bl_is_ancestor b 2 1) = Ok true /\ (b ← bl_from ex_tree 3; bl_is_ancestor b 4 1) = Ok false /\
  (b ← bl_from ex_tree 3; bl_lca b 5 1) = Ok 2 /\ (b ← bl_from ex_tree 3; bl_dis b 5 1) = Ok 4 /\
  (b ← bl_from ex_tree 3; Ok (bl_dep b)) = Ok [2; 3; 1; 0; 2; 3; 3].
Proof. split; [exact ex_tree_ok|]. vm_compute. auto. Qed.
