(** Property C27: src/graph/shortest_path.rs *)
From Verif Require Import Prelude IntModel HeapModel HeapList DijkstraModel DijkstraSpec DijkstraProof.
Open Scope Z_scope.

(** C27: with s < n, targets in range, non-negative weights, and no overflow of usize when an edge is added to the
    distance of its (reachable) source, dijkstra terminates, and entry v is Some(d) iff d is the least weight of a
    walk from s to v, and None iff v is unreachable; for every heap meeting BinaryHeap's contract. *)
Theorem C27_dijkstra : forall (B : binheap (reverse (Z * nat))) content, binheap_contract (rev_le pair_le) B content ->
  forall g s, wf_graph g -> (s < length g)%nat ->
  (forall u d es v c, shortest g s u d -> g !! u = Some es -> (v, c) ∈ es -> d + c <= 2 ^ 64 - 1) ->
  exists dis, dijkstra B g s = Ok dis /\ length dis = length g /\ forall v, (v < length g)%nat ->
    (forall d, dis !! v = Some (Some d) <-> shortest g s v d) /\
    (dis !! v = Some None <-> ~ exists w, walk g s v w).
Proof.
  intros B content HB g s Hg Hs Hfit. destruct (dijkstra_ok B content HB g s) as [[_ (u & d & es & v & c & H1 & H2 & H3 & H4)]|(dis & E & R & _)].
  - intros u es v c Hu Hc. apply (Hg u es v c Hu Hc).
  - exact Hs.
  - exfalso. specialize (Hfit u d es v c H1 H2 H3). destruct (Hg u es v c H2 H3). lia.
  - exists dis. split; [exact E|exact R].
Qed.
Print Assumptions C27_dijkstra.

(** Out-of-range source: index panic. *)
Theorem C27_bad_source : forall B g s, (length g <= s)%nat -> dijkstra B g s = Panic.
Proof. intros B g s H. unfold dijkstra. rewrite vset_panic by (rewrite replicate_length; exact H). reflexivity. Qed.
Print Assumptions C27_bad_source.

(** Whatever the edge targets: dijkstra panics exactly when a reachable vertex has an edge that leaves the vertex range
    or whose weight added to the vertex's distance overflows usize, and otherwise answers as in C27_dijkstra. *)
Theorem C27_panics : forall (B : binheap (reverse (Z * nat))) content, binheap_contract (rev_le pair_le) B content ->
  forall g s, nonneg g -> (s < length g)%nat ->
  (dijkstra B g s = Panic <-> exists u d es v c, shortest g s u d /\ g !! u = Some es /\ (v, c) ∈ es /\
     ((length g <= v)%nat \/ 2 ^ 64 <= d + c)) /\
  (dijkstra B g s = Panic \/ exists dis, dijkstra B g s = Ok dis /\ length dis = length g /\ forall v, (v < length g)%nat ->
    (forall d, dis !! v = Some (Some d) <-> shortest g s v d) /\
    (dis !! v = Some None <-> ~ exists w, walk g s v w)).
Proof.
  intros B content HB g s Hg Hs.
  assert (Hbad : bad g s <-> exists u d es v c, shortest g s u d /\ g !! u = Some es /\ (v, c) ∈ es /\
     ((length g <= v)%nat \/ 2 ^ 64 <= d + c)).
  { unfold bad. split; intros (u & d & es & v & c & H1 & H2 & H3 & H4); exists u, d, es, v, c; (repeat split; [exact (proj1 H1)|exact (proj2 H1)|exact H2|exact H3|lia]). }
  rewrite <- Hbad. destruct (dijkstra_ok B content HB g s Hg Hs) as [[E Hb]|(dis & E & R & Hb)]; rewrite E.
  - split; [tauto|left; reflexivity].
  - split; [split; [discriminate|tauto]|right]. exists dis. split; [reflexivity|exact R].
Qed.
Print Assumptions C27_panics.

Definition pair_leb (a b : Z * nat) : bool := (a.1 <? b.1) || ((a.1 =? b.1) && (a.2 <=? b.2)%nat).
Definition pheap : binheap (reverse (Z * nat)) := list_heap pair_leb.
Lemma pheap_contract : binheap_contract (rev_le pair_le) pheap (fun h => h).
Proof.
  apply list_heap_contract; unfold pair_le, pair_leb.
  - intros [a i] [b j]. cbn [fst snd]. rewrite orb_true_iff, andb_true_iff, Z.ltb_lt, Z.eqb_eq, Nat.leb_le. tauto.
  - intros [a i]. cbn [fst snd]. lia.
  - intros [a i] [b j] [c k]. cbn [fst snd]. lia.
  - intros [a i] [b j]. cbn [fst snd]. lia.
Qed.

Definition ex_g : wgraph := [[(1%nat, 7); (2%nat, 1)]; [(3%nat, 1)]; [(1%nat, 2); (1%nat, 9)]; []; [(0%nat, 0)]].
Example C27_nonvacuous : wf_graph ex_g /\ (forall u d es v c, shortest ex_g 0 u d -> ex_g !! u = Some es -> (v, c) ∈ es -> d + c <= 2 ^ 64 - 1) /\
  dijkstra pheap ex_g 0 = Ok [Some 0; Some 3; Some 1; Some 4; None].
Proof.
  assert (Hc : forall u es v c, ex_g !! u = Some es -> (v, c) ∈ es -> (v < 4)%nat /\ 0 <= c <= 9).
  { intros u es v c Hu Hin. do 5 (destruct u as [|u]; [injection Hu as <-; repeat (apply elem_of_cons in Hin as [[= -> ->]|Hin]; [lia|]); inversion Hin|]). discriminate. }
  split; [|split; [|vm_compute; reflexivity]].
  - intros u es v c Hu Hin. destruct (Hc u es v c Hu Hin). cbn. lia.
  - intros u d es v c [Hwu Hmin] Hu Hin. destruct (Hc u es v c Hu Hin).
    assert (Hlt : (u < 4)%nat) by (destruct Hwu as [|x w es' y c' _ Hx Hy]; [lia|apply (Hc _ _ _ _ Hx Hy)]).
    assert (Hw : (u < 4)%nat -> exists w, walk ex_g 0 u w /\ w <= 4).
    { intros Hu4. assert (W0 : walk ex_g 0 0 0) by apply walk_nil.
      assert (W2 : walk ex_g 0 2 (0 + 1)) by (eapply walk_snoc; [exact W0|reflexivity|right; left]).
      assert (W1 : walk ex_g 0 1 (0 + 1 + 2)) by (eapply walk_snoc; [exact W2|reflexivity|left]).
      assert (W3 : walk ex_g 0 3 (0 + 1 + 2 + 1)) by (eapply walk_snoc; [exact W1|reflexivity|left]).
      do 4 (destruct u as [|u]; [eexists; split; [eassumption|lia]|]). lia. }
    destruct (Hw Hlt) as (w & Hwalk & Hle). specialize (Hmin w Hwalk). lia.
Qed.
(** Vertex 0 reaches 1 at distance 2^63, and the edge back overflows; an edge out of range at an unreachable vertex is harmless. *)
Example C27_panics_nonvacuous : nonneg [[(1%nat, 2 ^ 63)]; [(0%nat, 2 ^ 63)]] /\
  dijkstra pheap [[(1%nat, 2 ^ 63)]; [(0%nat, 2 ^ 63)]] 0 = Panic /\
  dijkstra pheap [[(1%nat, 2 ^ 63)]; [(0%nat, 2 ^ 63 - 1)]; [(9%nat, 1)]] 0 = Ok [Some 0; Some (2 ^ 63); None] /\
  dijkstra pheap [[(9%nat, 1)]] 0 = Panic.
Proof.
  split; [|repeat split; vm_compute; reflexivity].
  intros u es v c Hu Hin. do 2 (destruct u as [|u]; [injection Hu as <-; apply elem_of_list_singleton in Hin as [= -> ->]; lia|]). discriminate.
Qed.
Close Scope Z_scope.
