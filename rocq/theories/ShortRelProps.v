(** C115: relations between several runs of dijkstra. *)
From Verif Require Import Prelude HeapModel DijkstraModel DijkstraSpec DijkstraProps ShortRelSpec ShortRelModel ShortRelProof.
Open Scope Z_scope.

(** The answers from two sources obey the triangle inequality, and the answer for the source itself is 0. *)
Theorem C115_triangle : forall (B : binheap (reverse (Z * nat))) content, binheap_contract (rev_le pair_le) B content ->
  forall g s u ds du, nonneg g -> dijkstra B g s = Ok ds -> dijkstra B g u = Ok du ->
  ds !! s = Some (Some 0) /\
  forall v a b, ds !! u = Some (Some a) -> du !! v = Some (Some b) -> exists c, ds !! v = Some (Some c) /\ 0 <= c <= a + b.
Proof.
  intros B content HB g s u ds du Hg E1 E2. destruct (answer B content g s ds HB Hg E1) as (Hs & L1 & A1 & _). destruct (answer B content g u du HB Hg E2) as (_ & _ & A2 & _). split.
  - apply A1. split; [exact Hs|]. split; [constructor|]. intros w W. exact (walk_nonneg g s s w Hg W).
  - intros v a b Ha Hb. apply A1 in Ha as [_ [Ha _]]. apply A2 in Hb as [Hv [Hb _]].
    destruct (answered B content g s ds v (a + b) HB Hg E1 Hv) as (c & Hc & Hle & W); [exact (walk_trans g s u v a b Ha Hb)|].
    exists c. split; [exact Hc|]. split; [exact (walk_nonneg g s v c Hg W)|exact Hle].
Qed.
Print Assumptions C115_triangle.

(** Bellman's equations: no edge from an answered vertex improves the answer of its target, and the answer of every vertex
    but the source is the answer of another vertex plus an edge between the two. *)
Theorem C115_bellman : forall (B : binheap (reverse (Z * nat))) content, binheap_contract (rev_le pair_le) B content ->
  forall g s dis, nonneg g -> dijkstra B g s = Ok dis ->
  (forall u v c a, dis !! u = Some (Some a) -> wedge g u v c -> exists b, dis !! v = Some (Some b) /\ b <= a + c) /\
  (forall v b, dis !! v = Some (Some b) -> v <> s -> exists u c a, wedge g u v c /\ dis !! u = Some (Some a) /\ b = a + c).
Proof.
  intros B content HB g s dis Hg E. destruct (answer B content g s dis HB Hg E) as (Hs & L & A & N). split.
  - intros u v c a Ha He. apply A in Ha as [Hu Ha]. assert (Hv : (v < length g)%nat).
    { destruct (decide (v < length g)%nat) as [H|H]; [exact H|]. exfalso. destruct (C27_panics B content HB g s Hg Hs) as [[_ P] _].
      rewrite P in E; [discriminate|]. destruct He as (es & He1 & He2). exists u, a, es, v, c. split_and!; [exact Ha|exact He1|exact He2|left; lia]. }
    destruct (answered B content g s dis v (a + c) HB Hg E Hv) as (b & Hb & Hle & _); [exact (walk_trans g s u v a c (proj1 Ha) (walk_edge g u v c He))|]. eauto.
  - intros v b Hb Hne. apply A in Hb as [Hv [W Hmin]]. inversion W as [|u w es v' c W' Hes Hin]; subst; [contradiction|].
    pose proof (lookup_lt_Some _ _ _ Hes) as Hu. destruct (answered B content g s dis u w HB Hg E Hu W') as (a & Ha & Hle & Wa).
    assert (He : wedge g u v c) by (exists es; auto). exists u, c, a. split; [exact He|]. split; [exact Ha|].
    specialize (Hmin (a + c) (walk_trans g s u v a c Wa (walk_edge g u v c He))). lia.
Qed.
Print Assumptions C115_bellman.

(** Turning all edges round exchanges the roles of source and target. *)
Theorem C115_reverse : forall (B : binheap (reverse (Z * nat))) content, binheap_contract (rev_le pair_le) B content ->
  forall g s t ds dt, wf_graph g ->
  exists r, rev_graph g = Ok r /\ wf_graph r /\ length r = length g /\
    (dijkstra B g s = Ok ds -> dijkstra B r t = Ok dt -> ds !! t = dt !! s).
Proof.
  intros B content HB g s t ds dt Hg. destruct (rev_graph_ok g Hg) as (r & Hr & L & E). pose proof (rev_wf g r Hg L E) as Hw.
  exists r. split; [exact Hr|]. split; [exact Hw|]. split; [exact L|]. intros E1 E2.
  assert (N1 : nonneg g) by (intros u es v c Hu Hv; apply (Hg u es v c Hu Hv)). assert (N2 : nonneg r) by (intros u es v c Hu Hv; apply (Hw u es v c Hu Hv)).
  destruct (answer B content g s ds HB N1 E1) as (Hs & L1 & A1 & U1). destruct (answer B content r t dt HB N2 E2) as (Ht & L2 & A2 & U2).
  assert (T : forall w, walk g s t w <-> walk r t s w) by (intros w; split; apply walk_turn; intros x y c H; apply E; exact H).
  destruct (ds !! t) as [[d|]|] eqn:Ed; symmetry.
  - apply A2. split; [lia|]. apply A1 in Ed as [_ [W M]]. split; [apply T; exact W|]. intros w Hw'. apply M, T, Hw'.
  - apply U2. split; [lia|]. apply U1 in Ed as [_ H]. intros [w W]. apply H. exists w. apply T, W.
  - apply lookup_ge_None in Ed. lia.
Qed.
Print Assumptions C115_reverse.

(** A graph that has every edge in both directions has symmetric distances. *)
Theorem C115_symmetric : forall (B : binheap (reverse (Z * nat))) content, binheap_contract (rev_le pair_le) B content ->
  forall g s t ds dt, nonneg g -> (forall u v c, wedge g u v c -> wedge g v u c) ->
  dijkstra B g s = Ok ds -> dijkstra B g t = Ok dt -> ds !! t = dt !! s.
Proof.
  intros B content HB g s t ds dt Hg Hsym E1 E2.
  destruct (answer B content g s ds HB Hg E1) as (Hs & L1 & A1 & U1). destruct (answer B content g t dt HB Hg E2) as (Ht & L2 & A2 & U2).
  assert (T : forall w, walk g s t w <-> walk g t s w) by (intros w; split; apply walk_turn; exact Hsym).
  destruct (ds !! t) as [[d|]|] eqn:Ed; symmetry.
  - apply A2. split; [lia|]. apply A1 in Ed as [_ [W M]]. split; [apply T; exact W|]. intros w Hw'. apply M, T, Hw'.
  - apply U2. split; [lia|]. apply U1 in Ed as [_ H]. intros [w W]. apply H. exists w. apply T, W.
  - apply lookup_ge_None in Ed. lia.
Qed.
Print Assumptions C115_symmetric.

(** More edges never make an answer larger and never lose one. *)
Theorem C115_more_edges : forall (B : binheap (reverse (Z * nat))) content, binheap_contract (rev_le pair_le) B content ->
  forall g g' s dis dis', nonneg g -> nonneg g' -> (length g <= length g')%nat -> (forall u v c, wedge g u v c -> wedge g' u v c) ->
  dijkstra B g s = Ok dis -> dijkstra B g' s = Ok dis' ->
  forall v d, dis !! v = Some (Some d) -> exists d', dis' !! v = Some (Some d') /\ d' <= d.
Proof.
  intros B content HB g g' s dis dis' Hg Hg' Hl Hsub E E' v d Hd. destruct (answer B content g s dis HB Hg E) as (_ & _ & A & _). apply A in Hd as [Hv [W _]].
  destruct (answered B content g' s dis' v d HB Hg' E') as (d' & H1 & H2 & _); [lia|exact (walk_mono g g' s v d Hsub W)|]. eauto.
Qed.
Print Assumptions C115_more_edges.

(** The outcome, panics included, depends only on the set of edges: not on the order of the adjacency lists, on repeated
    edges, or on the heap that BinaryHeap happens to be. *)
Theorem C115_edge_set : forall (B B' : binheap (reverse (Z * nat))) content content',
  binheap_contract (rev_le pair_le) B content -> binheap_contract (rev_le pair_le) B' content' ->
  forall g g' s, nonneg g -> nonneg g' -> length g = length g' -> (forall u v c, wedge g u v c <-> wedge g' u v c) ->
  dijkstra B g s = dijkstra B' g' s.
Proof.
  intros B B' content content' HB HB' g g' s Hg Hg' L Hsame.
  destruct (decide (s < length g)%nat) as [Hs|Hs]; [|rewrite !C27_bad_source by lia; reflexivity].
  assert (Hs' : (s < length g')%nat) by lia.
  assert (T : forall v w, walk g s v w <-> walk g' s v w) by (intros v w; split; apply walk_mono; intros x y c H; apply Hsame; exact H).
  destruct (C27_panics B content HB g s Hg Hs) as [P O]. destruct (C27_panics B' content' HB' g' s Hg' Hs') as [P' O'].
  assert (PP : dijkstra B g s = Panic <-> dijkstra B' g' s = Panic).
  { rewrite P, P'. split; intros (u & d & es & v & c & H1 & H2 & H3 & H4).
    - destruct (proj1 (Hsame u v c)) as (es' & H5 & H6); [exists es; auto|]. exists u, d, es', v, c. split_and!; [|exact H5|exact H6|rewrite <- L; exact H4].
      apply (shortest_same g g' s u d T). exact H1.
    - destruct (proj2 (Hsame u v c)) as (es' & H5 & H6); [exists es; auto|]. exists u, d, es', v, c. split_and!; [|exact H5|exact H6|rewrite L; exact H4].
      apply (shortest_same g g' s u d T). exact H1. }
  destruct O as [O|(dis & E & L1 & A)]; [rewrite O; symmetry; apply PP, O|].
  destruct O' as [O'|(dis' & E' & L2 & A')]; [rewrite O'; apply PP, O'|]. rewrite E, E'. f_equal. apply list_eq. intros v.
  destruct (decide (v < length g)%nat) as [Hv|Hv]; [|rewrite !lookup_ge_None_2 by lia; reflexivity].
  destruct (A v Hv) as [A1 A2]. destruct (A' v ltac:(lia)) as [A1' A2'].
  destruct (dis !! v) as [[d|]|] eqn:Ed; [| |apply lookup_ge_None in Ed; lia]; symmetry.
  - apply A1'. apply (shortest_same g g' s v d T). apply A1. reflexivity.
  - apply A2'. intros [w W]. apply (proj1 A2 eq_refl). exists w. apply T, W.
Qed.
Print Assumptions C115_edge_set.

Definition ex_h : list (list (nat * Z)) := [[(1%nat, 4); (2%nat, 1)]; [(3%nat, 1)]; [(1%nat, 2); (3%nat, 9)]; []; [(0%nat, 0)]].
Example C115_nonvacuous : wf_graph ex_h /\ dijkstra pheap ex_h 0 = Ok [Some 0; Some 3; Some 1; Some 4; None] /\ dijkstra pheap ex_h 2 = Ok [None; Some 2; Some 0; Some 3; None] /\
  rev_graph ex_h = Ok [[(4%nat, 0)]; [(0%nat, 4); (2%nat, 2)]; [(0%nat, 1)]; [(1%nat, 1); (2%nat, 9)]; []] /\
  dijkstra pheap [[(4%nat, 0)]; [(0%nat, 4); (2%nat, 2)]; [(0%nat, 1)]; [(1%nat, 1); (2%nat, 9)]; []] 3 = Ok [Some 4; Some 1; Some 3; Some 0; Some 4].
Proof.
  split; [|repeat split; vm_compute; reflexivity]. intros u es v c Hu Hin.
  do 5 (destruct u as [|u]; [injection Hu as <-; repeat (apply elem_of_cons in Hin as [[= -> ->]|Hin]; [cbn; lia|]); inversion Hin|]). discriminate.
Qed.
Close Scope Z_scope.
