(** Property C80: Dinic and Dijkstra in release builds *)
From Verif Require Import Prelude IntModel HeapModel ArraySpec DijkstraModel DijkstraSpec DijkstraProof DijkstraProps
  DinicModel DinicSpec DinicProof DinicProps NumReleaseModel GraphReleaseModel GraphReleaseSpec GraphReleaseProof.
Open Scope Z_scope.

Lemma prim_bits T : T ∈ prim_types -> 0 < it_bits T.
Proof.
  unfold prim_types. rewrite !elem_of_cons, elem_of_nil.
  intros H. repeat destruct H as [-> | H]; try (vm_compute; congruence). done.
Qed.

(** C80: every history on Dinic::new(n), capacities >= 0, any s and t in each call: get_max_flow terminates without a panic
    (but for vertices out of range) and answers the most that can still be sent from s to t, modulo 2^bits. *)
Theorem C80_dinic : forall T n ops,
  T ∈ prim_types -> Z.of_nat n <= 2 ^ 31 - 1 ->
  Forall (fun o => match o with DnEdge _ _ c => 0 <= c <= it_max T | DnFlow _ _ => True end) ops ->
  dn_wraps T n [] [] ops (snd <$> run (dn_step_release T) (dn_new n) ops).
Proof.
  intros T n ops HT Hn Hops. destruct (prim_bounds T HT) as [H1 H2].
  apply (wraps_history T n (prim_bits T HT) H1 H2 Hn ops [] (dn_new n) Hops (Forall_nil_2 _) (dn_new_inv n)).
Qed.
Print Assumptions C80_dinic.

(** The plain form: one call on a network. *)
Theorem C80_max_flow : forall T n s t (es : list fedge),
  T ∈ prim_types -> Z.of_nat n <= 2 ^ 31 - 1 -> (s < n)%nat -> (t < n)%nat -> s <> t ->
  Forall (fun x => (x.1.1 < n)%nat /\ (x.1.2 < n)%nat /\ 0 <= x.2 <= it_max T) es ->
  exists d d' a v, rfor es (fun x d => dn_add_edge d x.1.1 x.1.2 x.2) (dn_new n) = Ok d /\
    dn_max_flow_release T d s t = Ok (d', a) /\ is_max_flow es s t v /\
    it_min T <= a <= it_max T /\ (2 ^ it_bits T | a - v) /\ (v <= it_max T -> a = v).
Proof.
  intros T n s t es HT Hn Hs Ht Hst Hes. destruct (prim_bounds T HT) as [H1 H2]. pose proof (prim_bits T HT) as HTb.
  destruct (build_ok T n es Hes) as (d & E & Hd & Hnet).
  destruct (max_flow_release_gen T n es d s t) as (d' & v & E' & Hv & Hd' & Hx & Hc); auto.
  { apply (Forall_impl _ _ _ Hes). intros x Hx. apply Hx. }
  exists d, d', (wrap T v), v. split; [exact E|]. split; [exact E'|]. split; [|split; [apply wrap_in; exact HTb|split; [apply wrap_cong; exact HTb|]]].
  - assert (netf es (dn_e d') s = v) as <-.
    { rewrite (Hx s), Hnet. unfold ind. rewrite Nat.eqb_refl. destruct (Nat.eqb_spec t s); [congruence|lia]. }
    apply (closed_max es (dn_g d') n (dn_e d') s t (dn_h d') (di_g _ _ _ Hd') (di_e _ _ _ Hd') Hs); [|exact Hc].
    intros x Hxs Hxt. rewrite (Hx x), Hnet. unfold ind. destruct (Nat.eqb_spec s x); [congruence|]. destruct (Nat.eqb_spec t x); [congruence|lia].
  - intros Hle. apply wrap_id; [exact HTb|]. split; lia.
Qed.
Print Assumptions C80_max_flow.

(** Any history at all: where the dev profile completes, the release profile leaves the same structure and answers alike. *)
Theorem C80_dinic_same : forall T n ops d outs, T ∈ prim_types ->
  run (dn_step T) (dn_new n) ops = Ok (d, outs) -> run (dn_step_release T) (dn_new n) ops = Ok (d, outs).
Proof. intros T n ops d outs HT. apply (run_okle T (prim_bits T HT)). Qed.
Print Assumptions C80_dinic_same.

(** C80: dijkstra in a release build, for every graph (weights of any size): the loop ends; it panics exactly when some vertex
    reachable from s has an edge to a vertex out of range; otherwise it returns distances of addition modulo 2^64. *)
Theorem C80_dijkstra : forall (B : binheap (reverse (Z * nat))) content, binheap_contract (rev_le pair_le) B content ->
  forall g s, (s < length g)%nat ->
  exists N, forall fuel, (N <= fuel)%nat ->
    (dijkstra_release B fuel g s = Panic <->
       exists u w es v c, walk g s u w /\ g !! u = Some es /\ (v, c) ∈ es /\ (length g <= v)%nat) /\
    (dijkstra_release B fuel g s = Panic \/ exists dis, dijkstra_release B fuel g s = Ok dis /\ wrapped_distances g s dis).
Proof.
  intros B content HB g s Hs. destruct (dijkstra_release_ok B content HB g s Hs) as [N H]. exists N. intros fuel Hf. fold (rbad g s).
  destruct (H fuel Hf) as [[E HP]|(dis & E & HW & HP)]; rewrite E.
  - split; [tauto|left; reflexivity].
  - split; [split; [discriminate|tauto]|]. right. exists dis. auto.
Qed.
Print Assumptions C80_dijkstra.

(** A source out of range panics. *)
Theorem C80_bad_source : forall (B : binheap (reverse (Z * nat))) fuel g s, (length g <= s)%nat -> dijkstra_release B fuel g s = Panic.
Proof. intros B fuel g s Hs. unfold dijkstra_release. rewrite vset_panic by (rewrite replicate_length; exact Hs). reflexivity. Qed.
Print Assumptions C80_bad_source.
(** Where the dev profile completes, i.e. no addition overflows, these are the distances. *)
Theorem C80_dijkstra_same : forall (B : binheap (reverse (Z * nat))) g s dis, dijkstra B g s = Ok dis ->
  forall fuel, (length (concat g) + 2 <= fuel)%nat -> dijkstra_release B fuel g s = Ok dis.
Proof. intros B g s dis E fuel Hf. apply (dijkstra_okle B g s fuel Hf). exact E. Qed.
Print Assumptions C80_dijkstra_same.

(** 0 -> 1 three times with capacity 100: 300 mod 256 = 44 for i8; the dev profile panics.  u8 with both a residual edge and
    an answer that wraps. *)
Example C80_dinic_nonvacuous :
  snd <$> run (dn_step_release i8) (dn_new 2) [DnEdge 0 1 100; DnEdge 0 1 100; DnEdge 0 1 100; DnFlow 0 1; DnFlow 1 0] = Ok [None; None; None; Some 44; Some 44] /\
  snd <$> run (dn_step i8) (dn_new 2) [DnEdge 0 1 100; DnEdge 0 1 100; DnEdge 0 1 100; DnFlow 0 1] = Panic /\
  snd <$> run (dn_step_release u8) (dn_new 3) [DnEdge 0 1 200; DnEdge 1 2 130; DnEdge 0 2 126; DnEdge 2 0 1; DnFlow 0 2; DnFlow 2 0; DnFlow 0 3] = Panic /\
  snd <$> run (dn_step_release u8) (dn_new 3) [DnEdge 0 1 200; DnEdge 1 2 130; DnEdge 0 2 126; DnEdge 2 0 1; DnFlow 0 2; DnFlow 2 0] =
    Ok [None; None; None; None; Some 0; Some 1].
Proof. vm_compute. repeat split. Qed.

(** The addition 2^64 - 1 + 3 wraps to 2, below the true distance 5 of vertex 2; the dev profile panics there. *)
Example C80_dijkstra_nonvacuous :
  let g := [[(1%nat, 2 ^ 64 - 1); (2%nat, 5)]; [(2%nat, 3)]; [(0%nat, 1)]] in
  dijkstra_release pheap 20 g 0 = Ok [Some 0; Some (2 ^ 64 - 1); Some 2] /\ dijkstra pheap g 0 = Panic.
Proof. vm_compute. split; reflexivity. Qed.
Close Scope Z_scope.
