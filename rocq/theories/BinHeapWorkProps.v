(** How many comparisons MinHeap and dijkstra make (C121). *)
From stdpp Require Import relations.
From Verif Require Import Prelude ArraySpec Eff EffSpec IntModel HeapModel HeapSpec DijkstraModel DijkstraSpec DijkstraProof BinHeapModel BinHeapSpec BinHeapProof BinHeapWorkModel BinHeapWorkSpec BinHeapWorkProof BinHeapProps BinHeapDijkstraProof.
Close Scope Z_scope.

Lemma spent {W A} (R : relation W) c m (r : res A) x : spends R c (fun _ => 0) m r -> r = Ok x -> forall w, exists w' k, m w = Ok (x, w') /\ nsteps R k w w' /\ k <= c.
Proof. intros H -> w. destruct (H w) as (w' & k & E & N & L). exists w', k. split_and!; [exact E|exact N|lia]. Qed.

(** Each heap operation on n elements ends as the one of C120 and asks cmp at most so often: log2 (n + 1) for push, 2 log2 (n - 1) for pop,
    2 (n - 1) for rebuild, max (2 (n + m)) (min n m * log2 (n + m)) for append, 2 (n - 1) log2 (n - 1) for into_sorted_vec.  No law of cmp is needed. *)
Theorem C121_calls {W A} (R : relation W) (cmp : A -> A -> comparison) (cmpE : A -> A -> eff W comparison) : (forall a, acts R (cmp a) (cmpE a)) ->
  forall (data other : list A) (x : A) (w : W), let n := length data in let m := length other in
  (exists l w' k, bin_push cmp data x = Ok l /\ push_e cmpE data x w = Ok (l, w') /\ nsteps R k w w' /\ k <= Nat.log2 (n + 1)) /\
  (exists r w' k, bin_pop cmp data = Ok r /\ pop_e cmpE data w = Ok (r, w') /\ nsteps R k w w' /\ k <= 2 * Nat.log2 (n - 1)) /\
  (exists l w' k, bin_rebuild cmp data = Ok l /\ rebuild_e cmpE data w = Ok (l, w') /\ nsteps R k w w' /\ k <= 2 * (n - 1)) /\
  (exists l w' k, bin_append cmp data other = Ok (l, []) /\ append_e cmpE data other w = Ok ((l, []), w') /\ nsteps R k w w' /\ k <= Nat.max (2 * (n + m)) (Nat.min n m * Nat.log2 (n + m))) /\
  (exists l w' k, bin_into_sorted_vec cmp data = Ok l /\ into_sorted_vec_e cmpE data w = Ok (l, w') /\ nsteps R k w w' /\ k <= (n - 1) * (2 * Nat.log2 (n - 1))).
Proof.
  intros HE data other x w n m. split_and!.
  - destruct (push_ok cmp data x) as (l & E & _). destruct (spent R _ _ _ l (push_spends R cmp cmpE HE data x) E w) as (w' & k & H). eauto.
  - assert (exists r, bin_pop cmp data = Ok r) as [r E] by (pose proof (pop_ok cmp data) as P; destruct data; [eauto|destruct P as (? & ? & _); eauto]).
    destruct (spent R _ _ _ r (pop_spends R cmp cmpE HE data) E w) as (w' & k & H). eauto.
  - destruct (rebuild_ok cmp data) as (l & E & _). destruct (spent R _ _ _ l (rebuild_spends R cmp cmpE HE data) E w) as (w' & k & H). eauto.
  - destruct (append_ok cmp data other) as (l & E & _). destruct (spent R _ _ _ _ (append_spends R cmp cmpE HE data other) E w) as (w' & k & H). eauto.
  - destruct (sorted_ok cmp data) as (l & E & _). destruct (spent R _ _ _ l (sorted_spends R cmp cmpE HE data) E w) as (w' & k & H). eauto.
Qed.
Print Assumptions C121_calls.
(** A comparison that counts itself *)
Definition counting (a b : Z) : eff nat comparison := fun w => Ok (Z.compare a b, S w).
Example C121_calls_nonvacuous : (forall a, acts (fun w w' : nat => w' = S w) (Z.compare a) (counting a)) /\
  push_e counting [9; 8; 7; 6; 5; 4; 3]%Z 10%Z 0 = Ok ([10; 9; 7; 8; 5; 4; 3; 6]%Z, 3) /\ Nat.log2 (7 + 1) = 3 /\
  pop_e counting [9; 8; 7; 6; 5; 4; 3; 2; 1]%Z 0 = Ok ((Some 9, [8; 6; 7; 2; 5; 4; 3; 1])%Z, 3) /\ 2 * Nat.log2 (9 - 1) = 6 /\
  rebuild_e counting [1; 2; 3; 4; 5; 6; 7]%Z 0 = Ok ([7; 5; 6; 4; 2; 1; 3]%Z, 8) /\
  into_sorted_vec_e counting [7; 5; 6; 4; 2; 1; 3]%Z 0 = Ok ([1; 2; 3; 4; 5; 6; 7]%Z, 13).
Proof. split; [intros a b w; eexists; split; reflexivity|]. split_and!; vm_compute; reflexivity. Qed.

(** A whole history of calls on a MinHeap, starting from the empty one, gives the answers of C120 and asks at most as often as the calls cost
    when n is the number of elements put in: log2 n for a push, 2 log2 n for a pop, none for peek, len, is_empty and clear. *)
Theorem C121_history {W T} (R : relation W) (cmp : T -> T -> comparison) (cmpE : T -> T -> eff W comparison) (ops : list (mh_op T)) : (forall a, acts R (cmp a) (cmpE a)) ->
  exists h outs, run (bin_step cmp) [] ops = Ok (h, outs) /\ forall w, exists w' k, erun (step_e cmpE) [] ops w = Ok ((h, outs), w') /\ nsteps R k w w' /\
    k <= sum_list_with (mh_cost (inserted ops)) ops.
Proof.
  intros HE. destruct (run_ok cmp ops []) as (h & outs & E & _). exists h, outs. split; [exact E|]. intros w.
  exact (spent R _ _ _ (h, outs) (run_spends R cmp cmpE HE (inserted ops) ops [] ltac:(cbn; lia)) E w).
Qed.
Print Assumptions C121_history.
Example C121_history_nonvacuous : (r ← erun (step_e counting) [] ex_ops 0; Ok r.2) = Ok 23 /\ sum_list_with (mh_cost (inserted ex_ops)) ex_ops = 62.
Proof. split; vm_compute; reflexivity. Qed.

(** dijkstra over this heap: under the hypotheses of C27 it answers with the distances and compares (distance, vertex) pairs at most
    3 (m + 1) log2 (m + 1) times, m being the number of edges. *)
Theorem C121_dijkstra {W} (R : relation W) (cmp : Z * nat -> Z * nat -> comparison) (cmpE : Z * nat -> Z * nat -> eff W comparison) : (forall a, acts R (cmp a) (cmpE a)) -> ordered cmp pair_le ->
  forall g s, wf_graph g -> s < length g -> (forall u d es v c, shortest g s u d -> g !! u = Some es -> (v, c) ∈ es -> (d + c <= 2 ^ 64 - 1)%Z) ->
  exists dis, (length dis = length g /\ forall v, v < length g -> (forall d, dis !! v = Some (Some d) <-> shortest g s v d) /\ (dis !! v = Some None <-> ~ exists w, walk g s v w)) /\
    forall w, exists w' k, dijkstra_e cmpE g s w = Ok (dis, w') /\ nsteps R k w w' /\ k <= 3 * (length (concat g) + 1) * Nat.log2 (length (concat g) + 1).
Proof.
  intros HE O g s Hg Hs Hfit. destruct (dijkstra_spends R cmp cmpE HE O g s) as (dis & Hr & S1).
  - intros u es v c Hu Hc. apply (Hg u es v c Hu Hc).
  - exact Hs.
  - intros (u & d & es & v & c & H1 & H2 & H3 & H4). specialize (Hfit u d es v c H1 H2 H3). destruct (Hg u es v c H2 H3). lia.
  - exists dis. split; [exact Hr|]. intros w. exact (spent R _ _ _ dis S1 eq_refl w).
Qed.
Print Assumptions C121_dijkstra.
(** Ord of (usize, usize), counting *)
Definition pair_cmp (a b : Z * nat) : comparison := match Z.compare a.1 b.1 with Eq => Nat.compare a.2 b.2 | c => c end.
Definition pair_counting (a b : Z * nat) : eff nat comparison := fun w => Ok (pair_cmp a b, S w).
Definition ex_graph : wgraph := [[(1%nat, 4); (2%nat, 1)]; [(3%nat, 1)]; [(1%nat, 2); (3%nat, 5); (2%nat, 0)]; []; [(0%nat, 7)]]%Z.
Example C121_dijkstra_nonvacuous : (forall a, acts (fun w w' : nat => w' = S w) (pair_cmp a) (pair_counting a)) /\ ordered pair_cmp pair_le /\ wf_graph ex_graph /\
  dijkstra_e pair_counting ex_graph 0 0 = Ok ([Some 0; Some 3; Some 1; Some 4; None]%Z, 6) /\ 3 * (length (concat ex_graph) + 1) * Nat.log2 (length (concat ex_graph) + 1) = 72.
Proof.
  split; [intros a b w; eexists; split; reflexivity|]. split.
  { split; unfold pair_cmp, pair_le.
    - intros [a x] [b y]. cbn [fst snd]. destruct (Z.compare_spec a b); [subst; destruct (Nat.compare_spec x y)| |]; split; try congruence; intros; lia.
    - intros [a x] [b y]. cbn [fst snd]. rewrite (Z.compare_antisym a b). destruct (Z.compare a b); cbn; [apply Nat.compare_antisym|reflexivity|reflexivity].
    - intros [a x] [b y] [c z]. cbn [fst snd]. lia. }
  split; [|split; vm_compute; reflexivity].
  intros u es v c Hu Hin. do 5 (destruct u as [|u]; [cbn in Hu; injection Hu as <-; repeat (apply elem_of_cons in Hin as [[= -> ->]|Hin]; [cbn; lia|]); inversion Hin|]). discriminate Hu.
Qed.
