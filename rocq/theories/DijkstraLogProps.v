(** Property C88: the work done by src/graph/shortest_path.rs *)
From Coq Require Import Sorting.Sorted.
From Verif Require Import Prelude IntModel HeapModel DijkstraModel DijkstraSpec DijkstraProof DijkstraProps DijkstraLogModel DijkstraLogSpec DijkstraLogProof.
Open Scope Z_scope.

(** C88: the recording run computes what the run without the record does, whatever the heap, the graph and the source. *)
Theorem C88_same_run : forall (B : binheap (reverse (Z * nat))) g s, fst <$> dijkstra_log B g s = dijkstra B g s.
Proof. exact dijkstra_erase. Qed.
Print Assumptions C88_same_run.

(** C88: under the hypotheses of C27_dijkstra, the vertices whose edge lists are read are the reachable ones, each is read once, at its
    distance, in the order of the distances; the edges read are the edges of these vertices, each once; what is pushed is popped, no
    (distance, vertex) pair is pushed twice, the pops come in the order of the distances, and there is at most one push per edge read
    and one for the source. *)
Theorem C88_work : forall (B : binheap (reverse (Z * nat))) content, binheap_contract (rev_le pair_le) B content ->
  forall g s, wf_graph g -> (s < length g)%nat ->
  (forall u d es v c, shortest g s u d -> g !! u = Some es -> (v, c) ∈ es -> d + c <= 2 ^ 64 - 1) ->
  exists dis w, dijkstra_log B g s = Ok (dis, w) /\
    (forall d u, (d, u) ∈ dj_scans w <-> shortest g s u d) /\ NoDup (dj_scans w).*2 /\ StronglySorted Z.le (dj_scans w).*1 /\
    dj_edges w = concat (edges_of g <$> (dj_scans w).*2) /\
    dj_pops w ≡ₚ dj_pushes w /\ NoDup (dj_pushes w) /\ StronglySorted Z.le (dj_pops w).*1 /\ (length (dj_pushes w) <= 1 + length (dj_edges w))%nat.
Proof.
  intros B content HB g s Hg Hs Hfit.
  destruct (dijkstra_log_ok B content HB g s) as (dis & w & E & _ & R).
  - intros u es v c Hu Hc. apply (Hg u es v c Hu Hc).
  - exact Hs.
  - intros (u & d & es & v & c & H1 & H2 & H3 & H4). specialize (Hfit u d es v c H1 H2 H3). destruct (Hg u es v c H2 H3). lia.
  - exists dis, w. split; [exact E|exact R].
Qed.
Print Assumptions C88_work.

(** C88, in numbers: at most one scan per vertex, one edge read per edge, one push and one pop per edge and one for the source. *)
Theorem C88_bounds : forall (B : binheap (reverse (Z * nat))) content, binheap_contract (rev_le pair_le) B content ->
  forall g s, wf_graph g -> (s < length g)%nat ->
  (forall u d es v c, shortest g s u d -> g !! u = Some es -> (v, c) ∈ es -> d + c <= 2 ^ 64 - 1) ->
  exists dis w, dijkstra_log B g s = Ok (dis, w) /\
    (length (dj_scans w) <= length g /\ length (dj_edges w) <= length (concat g) /\
     length (dj_pushes w) <= 1 + length (concat g) /\ length (dj_pops w) <= 1 + length (concat g))%nat.
Proof.
  intros B content HB g s Hg Hs Hfit. destruct (C88_work B content HB g s Hg Hs Hfit) as (dis & w & E & R1 & R2 & _ & R4 & R5 & _ & _ & R8).
  exists dis, w. split; [exact E|].
  assert (He : (length (dj_edges w) <= length (concat g))%nat) by (rewrite R4; apply (edges_le g s Hs), R2).
  assert (Hl : length (dj_pops w) = length (dj_pushes w)) by (apply Permutation_length, R5).
  assert (Hsc : (length (dj_scans w) <= length g)%nat); [|lia].
  rewrite <- (fmap_length snd (dj_scans w)), <- (seq_length (length g) 0). apply submseteq_length, NoDup_submseteq; [exact R2|].
  intros u Hu. apply elem_of_list_fmap in Hu as ([d u'] & -> & Hin). apply R1 in Hin as [Hw _]. cbn [snd]. apply elem_of_seq.
  destruct Hw as [|x w' es y c Hw Hx Hy]; [lia|]. destruct (Hg _ _ _ _ Hx Hy). lia.
Qed.
Print Assumptions C88_bounds.

(** The graph of C27: vertex 1 is pushed at 7 and again at 3, and its second entry is not scanned; the edge of weight 9 to it is read and pushes
    nothing; vertex 4 is not reached. *)
Example C88_nonvacuous : wf_graph ex_g /\ (forall u d es v c, shortest ex_g 0 u d -> ex_g !! u = Some es -> (v, c) ∈ es -> d + c <= 2 ^ 64 - 1) /\
  exists w, dijkstra_log pheap ex_g 0 = Ok ([Some 0; Some 3; Some 1; Some 4; None], w) /\
    dj_scans w = [(0, 0%nat); (1, 2%nat); (3, 1%nat); (4, 3%nat)] /\ dj_pops w = [(0, 0%nat); (1, 2%nat); (3, 1%nat); (4, 3%nat); (7, 1%nat)] /\
    dj_pushes w = [(0, 0%nat); (7, 1%nat); (1, 2%nat); (3, 1%nat); (4, 3%nat)] /\
    dj_edges w = [(0%nat, (1%nat, 7)); (0%nat, (2%nat, 1)); (2%nat, (1%nat, 2)); (2%nat, (1%nat, 9)); (1%nat, (3%nat, 1))].
Proof.
  split; [apply C27_nonvacuous|]. split; [apply C27_nonvacuous|]. eexists. split; [vm_compute; reflexivity|]. repeat split; reflexivity.
Qed.
Close Scope Z_scope.
