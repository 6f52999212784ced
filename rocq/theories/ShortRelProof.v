From Verif Require Import Prelude HeapModel DijkstraModel DijkstraSpec DijkstraProps ShortRelSpec ShortRelModel.
Open Scope Z_scope.

Lemma walk_trans g s u v a b : walk g s u a -> walk g u v b -> walk g s v (a + b).
Proof.
  intros Ha Hb. induction Hb as [|x w es v c Hx IH Hes Hv]; [rewrite Z.add_0_r; exact Ha|]. rewrite Z.add_assoc. eapply walk_snoc; eassumption.
Qed.
Lemma walk_edge g u v c : wedge g u v c -> walk g u v c.
Proof. intros (es & Hes & Hv). change c with (0 + c). eapply walk_snoc; [constructor|exact Hes|exact Hv]. Qed.
Lemma walk_mono g g' s v w : (forall x y c, wedge g x y c -> wedge g' x y c) -> walk g s v w -> walk g' s v w.
Proof.
  intros H W. induction W as [|u w es v c W IH Hes Hv]; [constructor|]. destruct (H u v c) as (es' & Hes' & Hv'); [exists es; auto|]. eapply walk_snoc; eassumption.
Qed.
Lemma walk_turn g g' s v w : (forall x y c, wedge g x y c -> wedge g' y x c) -> walk g s v w -> walk g' v s w.
Proof.
  intros H W. induction W as [|u w es v c W IH Hes Hv]; [constructor|]. rewrite Z.add_comm. eapply walk_trans; [|exact IH]. apply walk_edge, H. exists es. auto.
Qed.
Lemma walk_nonneg g s v w : nonneg g -> walk g s v w -> 0 <= w.
Proof. intros H W. induction W as [|u w es v c W IH Hes Hv]; [lia|]. specialize (H u es v c Hes Hv). lia. Qed.

Lemma shortest_same g g' s v d : (forall x w, walk g s x w <-> walk g' s x w) -> shortest g s v d <-> shortest g' s v d.
Proof. intros H. unfold shortest. setoid_rewrite H. reflexivity. Qed.

(** ** The client *)
Lemma rev_row (es : list (nat * Z)) u n : forall r, length r = n -> Forall (fun e : nat * Z => (e.1 < n)%nat) es ->
  exists r', rfor es (fun e r => row ← vget r e.1; vset r e.1 (row ++ [(u, e.2)])) r = Ok r' /\ length r' = n /\
    forall x y c, wedge r' x y c <-> wedge r x y c \/ (y = u /\ (x, c) ∈ es).
Proof.
  induction es as [|[v c0] es IH]; intros r Hr Hes.
  - exists r. split; [reflexivity|]. split; [exact Hr|]. intros x y c. split; [auto|]. intros [H|[_ H]]; [exact H|inversion H].
  - inversion Hes as [|? ? H1 H2]; subst. cbn [rfor fst snd] in *. destruct (lookup_lt_is_Some_2 r v H1) as [row Hrow]. rewrite (vget_ok _ _ _ Hrow). cbn [mbind res_bind].
    rewrite vset_ok by exact H1. cbn [mbind res_bind].
    destruct (IH (<[v:=row ++ [(u, c0)]]> r)) as (r' & Hr' & L & E); [apply insert_length|exact H2|]. exists r'. split; [exact Hr'|]. split; [exact L|].
    intros x y c. rewrite E. unfold wedge. destruct (decide (x = v)) as [->|Hne].
    + rewrite list_lookup_insert by exact H1. split.
      * intros [(es' & [= <-] & Hy)|[-> Hx]]; [|right; split; [reflexivity|right; exact Hx]]. apply elem_of_app in Hy as [Hy|Hy]; [left; eauto|].
        apply elem_of_list_singleton in Hy as [= -> ->]. right. split; [reflexivity|left].
      * intros [(es' & He & Hy)|[-> Hx]].
        -- left. eexists. split; [reflexivity|]. apply elem_of_app. left. congruence.
        -- apply elem_of_cons in Hx as [[= ->]|Hx]; [left|right; auto]. eexists. split; [reflexivity|]. apply elem_of_app. right. left.
    + rewrite list_lookup_insert_ne by auto. split.
      * intros [H|[-> Hx]]; [auto|right; split; [reflexivity|right; exact Hx]].
      * intros [H|[-> Hx]]; [auto|]. apply elem_of_cons in Hx as [[= ? ?]|Hx]; [contradiction|auto].
Qed.

Lemma rev_graph_ok g : wf_graph g -> exists r, rev_graph g = Ok r /\ length r = length g /\ forall x y c, wedge r x y c <-> wedge g y x c.
Proof.
  intros Hg. unfold rev_graph, range.
  destruct (rfor_range_inv (fun k (r : wgraph) => length r = length g /\ forall x y c, wedge r x y c <-> (y < k)%nat /\ wedge g y x c) 0 (length g)
    (fun u r => es ← vget g u; rfor es (fun e r => row ← vget r e.1; vset r e.1 (row ++ [(u, e.2)])) r) (replicate (length g) [])) as (r & Hr & L & E).
  - lia.
  - split; [apply replicate_length|]. intros x y c. split; [|lia]. intros (es & H & Hy). apply lookup_replicate in H as [-> _]. inversion Hy.
  - intros u r Hu [L E]. destruct (lookup_lt_is_Some_2 g u) as [es Hes]; [lia|]. rewrite (vget_ok _ _ _ Hes). cbn [mbind res_bind].
    destruct (rev_row es u (length g) r L) as (r' & Hr' & L' & E').
    { apply Forall_forall. intros [v c] Hv. apply (Hg u es v c Hes Hv). }
    exists r'. split; [exact Hr'|]. split; [exact L'|]. intros x y c. rewrite E', E. split.
    + intros [[H1 H2]|[-> H]]; [split; [lia|exact H2]|]. split; [lia|]. exists es. auto.
    + intros [H1 H2]. destruct (decide (y = u)) as [->|Hne]; [right|left; split; [lia|exact H2]]. split; [reflexivity|]. destruct H2 as (es' & He & Hx). congruence.
  - exists r. split; [exact Hr|]. split; [exact L|]. intros x y c. rewrite E. split; [tauto|]. intros H. split; [|exact H].
    destruct H as (es & H & _). apply lookup_lt_Some in H. exact H.
Qed.

Lemma rev_wf g r : wf_graph g -> length r = length g -> (forall x y c, wedge r x y c <-> wedge g y x c) -> wf_graph r.
Proof.
  intros Hg L E u es v c Hu Hv. destruct (proj1 (E u v c)) as (es' & H1 & H2); [exists es; auto|]. pose proof (lookup_lt_Some _ _ _ H1). destruct (Hg v es' u c H1 H2). lia.
Qed.

(** What an answer of dijkstra says about a vertex. *)
Lemma answer B content g s dis : binheap_contract (rev_le pair_le) B content -> nonneg g -> dijkstra B g s = Ok dis ->
  (s < length g)%nat /\ length dis = length g /\
  (forall v d, dis !! v = Some (Some d) <-> (v < length g)%nat /\ shortest g s v d) /\
  (forall v, dis !! v = Some None <-> (v < length g)%nat /\ ~ exists w, walk g s v w).
Proof.
  intros HB Hg E. destruct (decide (s < length g)%nat) as [Hs|Hs]; [|rewrite (C27_bad_source B g s) in E by lia; discriminate].
  destruct (C27_panics B content HB g s Hg Hs) as [_ [E'|(dis' & E' & L & H)]]; [congruence|]. rewrite E in E'. injection E' as <-.
  split; [exact Hs|]. split; [exact L|]. split.
  - intros v d. split; [intros Hv; pose proof (lookup_lt_Some _ _ _ Hv) as Hl; rewrite L in Hl; split; [exact Hl|]; apply (H v Hl); exact Hv|intros [Hl Hv]; apply (H v Hl); exact Hv].
  - intros v. split; [intros Hv; pose proof (lookup_lt_Some _ _ _ Hv) as Hl; rewrite L in Hl; split; [exact Hl|]; apply (H v Hl); exact Hv|intros [Hl Hv]; apply (H v Hl); exact Hv].
Qed.

(** A vertex with a walk to it has an answer. *)
Lemma answered B content g s dis v w : binheap_contract (rev_le pair_le) B content -> nonneg g -> dijkstra B g s = Ok dis -> (v < length g)%nat -> walk g s v w ->
  exists d, dis !! v = Some (Some d) /\ d <= w /\ walk g s v d.
Proof.
  intros HB Hg E Hv W. destruct (answer B content g s dis HB Hg E) as (_ & L & H1 & H2).
  destruct (dis !! v) as [[d|]|] eqn:Ed.
  - exists d. split; [reflexivity|]. apply H1 in Ed as [_ [Hd Hmin]]. split; [apply Hmin; exact W|exact Hd].
  - apply H2 in Ed as [_ N]. exfalso. eauto.
  - apply lookup_ge_None in Ed. lia.
Qed.
Close Scope Z_scope.
