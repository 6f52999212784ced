(** How much the structures store (C131). *)
From Verif Require Import Prelude UtilModel ArraySpec SegtreeSpec SegtreeModel LazySpec LazyModel FenwickSpec FenwickModel SparseModel UnionFindModel LiftModel HldSpec HldModel IntModel DinicModel DinicSpec MatchingModel MatchingSpec AhoModel HeapModel DijkstraModel DijkstraSpec DijkstraProof UtilProps SpaceSpec SpaceModel SpaceProof SpaceHeapProof DijkstraProps.
Close Scope Z_scope.

(** C131: a Segtree or LazySegtree over n > 0 values stores less than 4n values, and less than 2n maps, after every history; a Fenwick tree n.
    No law is assumed of the operations. *)
Theorem C131_segtree : forall {S} (e : S) op v t0 ops t outs, v <> [] -> st_from e op v = Ok t0 -> run (st_step e op) t0 ops = Ok (t, outs) ->
  2 * length v <= length (sg_d t) < 4 * length v.
Proof.
  intros S e op v t0 ops t outs Hv E R. destruct (kp_from e op v t0 E) as (D & L1 & L2). assert (0 < length v) by (destruct v; [congruence|cbn; lia]). specialize (L2 H).
  destruct (kp_run (seg_dims (length v) (sg_size t0)) (st_step e op) (fun s o => kp_step e op _ _ s o) ops t0 D _ R) as (_ & _ & D'). cbn in D'. lia.
Qed.
Print Assumptions C131_segtree.
Theorem C131_lazy : forall {S F} (e : S) op (idm : F) mapping comp v t0 ops t outs, v <> [] -> lt_from e op idm v = Ok t0 -> run (lt_step e op idm mapping comp) t0 ops = Ok (t, outs) ->
  2 * length v <= length (lt_d t) < 4 * length v /\ length v <= length (lt_lz t) < 2 * length v.
Proof.
  intros S F e op idm mapping comp v t0 ops t outs Hv E R. destruct (kp_lt_from e op idm v t0 E) as (D & L1 & L2). assert (0 < length v) by (destruct v; [congruence|cbn; lia]). specialize (L2 H).
  destruct (kp_run (lz_dims (length v) (lt_size t0)) (lt_step e op idm mapping comp) (fun s o => kp_lt_step e op idm mapping comp _ _ s o) ops t0 D _ R) as (_ & _ & D' & D2). cbn in D', D2. lia.
Qed.
Print Assumptions C131_lazy.
Theorem C131_fenwick : forall {T U} (zero : T) add sub (addu : T -> U -> T) t0 n ops t outs, t0 = Ok (fw_new zero n) \/ (exists a, length a = n /\ t0 = fw_from zero add a) ->
  t0 ≫= (fun t0 => run (fw_step zero add sub addu) t0 ops) = Ok (t, outs) -> length (fw_ary t) = n.
Proof.
  intros T U zero add sub addu t0 n ops t outs H R. apply rbind_ok_inv in R as (t1 & E & R).
  assert (D : fw_dims n t1).
  { destruct H as [->|(a & <- & ->)]; [injection E as <-; split; [reflexivity|apply replicate_length]|exact (kp_fw_from zero add a t1 E)]. }
  exact (proj2 (kp_run (fw_dims n) _ (fun s o => kp_fw_step zero add sub addu _ s o) ops t1 D _ R)).
Qed.
Print Assumptions C131_fenwick.
(** A sparse table over n values has floor(log2 n) + 1 rows of n. *)
Theorem C131_sparse : forall {T} (v : list T) init op data, sp_from v init op = Ok data ->
  exists k, grid (k + 1) (length v) data /\ (Z.of_nat (length v) < 2 ^ 64 -> 2 ^ Z.of_nat k <= Z.of_nat (length v) < 2 ^ (Z.of_nat k + 1))%Z.
Proof.
  intros T v init op data E. destruct (kp_sp_from v init op data E) as (k & Ek & G). exists (Z.to_nat k). split; [exact G|]. intros Hv.
  assert (0 < Z.of_nat (length v))%Z by (destruct v; [exfalso; change (lg 0 = Ok k) in Ek; rewrite C49_lg_zero in Ek; discriminate|cbn; lia]).
  destruct (C49_lg (Z.of_nat (length v)) ltac:(lia)) as (k' & Ek' & K1 & K2). rewrite Ek in Ek'. injection Ek' as <-. rewrite Z2Nat.id by lia. exact K2.
Qed.
Print Assumptions C131_sparse.
(** UnionFind stores 2n numbers after every history. *)
Theorem C131_union_find : forall n ops u outs, run uf_step (uf_new n) ops = Ok (u, outs) -> length (uf_fa u) = n /\ length (uf_sz u) = n.
Proof.
  intros n ops u outs R. refine (proj2 (kp_run (uf_dims n) _ (fun s o => kp_uf_step n s o) ops _ _ _ R)). split_and!; [reflexivity|apply seq_length|apply replicate_length].
Qed.
Print Assumptions C131_union_find.
(** BinaryLifting: one row of floor(log2 n) + 1 ancestors per vertex and three numbers; HLD: six numbers per vertex besides its tree, after every history.
    The graph may be any graph. *)
Theorem C131_lifting : forall g root b, bl_from g root = Ok b ->
  grid (length g) (bl_level b) (bl_pa b) /\ length (bl_dep b) = length g /\ length (bl_tin b) = length g /\ length (bl_tout b) = length g /\
  (Z.of_nat (length g) < 2 ^ 64 -> 2 ^ (Z.of_nat (bl_level b) - 1) <= Z.of_nat (length g) < 2 ^ Z.of_nat (bl_level b))%Z.
Proof.
  intros g root b E. unfold bl_from in E. apply rbind_ok_inv in E as (l & El & E). cbv zeta in E. apply rbind_ok_inv in E as (st & E & E'). injection E' as <-.
  match type of E with bl_dfs _ _ _ _ ?s = _ => assert (D : bl_dims (length g) (Z.to_nat l + 1) s.1) end.
  { split_and!; cbn [fst bl_level bl_pa bl_dep bl_tin bl_tout]; [reflexivity|apply grid_replicate|apply replicate_length..]. }
  destruct (kp_bl_dfs _ _ _ _ _ _ _ D st E) as (H1 & H2 & H3 & H4 & H5).
  rewrite H1. split_and!; try assumption. intros Hg. assert (0 < Z.of_nat (length g))%Z by (destruct g; [exfalso; change (lg 0 = Ok l) in El; rewrite C49_lg_zero in El; discriminate|cbn; lia]).
  destruct (C49_lg (Z.of_nat (length g)) ltac:(lia)) as (k & Ek & K1 & K2). rewrite El in Ek. injection Ek as <-. rewrite Nat2Z.inj_add, Z2Nat.id by lia. cbn [Z.of_nat]. change (Z.of_nat 1) with 1%Z. rewrite Z.add_simpl_r. exact K2.
Qed.
Print Assumptions C131_lifting.
Theorem C131_hld : forall {S F} (e : S) op (idm : F) mapping comp g root x0 ops x outs, hld_new e op idm g root = Ok x0 \/ (exists v, hld_with_init e op idm g root v = Ok x0) -> run (hld_step e op idm mapping comp) x0 ops = Ok (x, outs) ->
  let h := hd_tree x in
  length (lt_d (hd_data x)) < 4 * length g /\ length (lt_lz (hd_data x)) < 2 * length g /\
  length (h_parent h) = length g /\ length (h_dep h) = length g /\ length (h_heavy h) = length g /\ length (h_head h) = length g /\ length (h_pos h) = length g /\ length (h_posr h) = length g.
Proof.
  intros S F e op idm mapping comp g root x0 ops x outs H R.
  assert (A : forall y, hld_new e op idm g root = Ok y -> 0 < length g /\ (exists size, hd_dims (length g) size y /\ size < 2 * length g)).
  { intros y E. unfold hld_new in E. apply rbind_ok_inv in E as ([] & E0 & E). destruct (Nat.ltb_spec root (length g)) as [Hr|]; [|discriminate]. apply rbind_ok_inv in E as (d & E1 & E). apply rbind_ok_inv in E as (h & E2 & E). injection E as <-. split; [lia|].
    destruct (kp_lt_from e op idm _ d E1) as (D & _ & D2). rewrite replicate_length in *. exists (lt_size d). split; [split; [exact D|exact (kp_hl_new g root h E2)]|apply D2; lia]. }
  assert (exists size, hd_dims (length g) size x0 /\ size < 2 * length g) as (size & D & L).
  { destruct H as [E|(v & E)]; [apply (A x0 E)|]. unfold hld_with_init in E. apply rbind_ok_inv in E as ([] & E0 & E). destruct (Nat.eqb_spec (length g) (length v)) as [Hv|]; [|discriminate]. apply rbind_ok_inv in E as (y & E1 & E). apply rbind_ok_inv in E as (a & E2 & E). apply rbind_ok_inv in E as (d & E3 & E). injection E as <-.
    destruct (A y E1) as (Hg & sz & [_ D] & _). assert (Ha : length a = length v).
    { refine (kp_rfor (fun a => length a = length v) _ _ _ v eq_refl a E2). intros i b Hb. kp. lia. }
    destruct (kp_lt_from e op idm a d E3) as (D' & _ & D2). rewrite Ha, <- Hv in *. exists (lt_size d). split; [split; assumption|apply D2; exact Hg]. }
  destruct (kp_run (hd_dims (length g) size) _ (fun s o => kp_hld_step e op idm mapping comp _ _ s o) ops x0 D _ R) as [(_ & _ & D1 & D2) (H1 & H2 & H3 & H4 & H5 & H6)]. cbn [fst] in *. cbv zeta. split_and!; try assumption; lia.
Qed.
Print Assumptions C131_hld.
(** Dinic and BipartiteMatching: what add_edge stored, and some numbers per vertex. *)
Theorem C131_dinic : forall T n ops d outs, run (dn_step T) (dn_new n) ops = Ok (d, outs) ->
  let m := length (dn_edges ops) in
  length (dn_e d) = 2 * m /\ length (dn_g d) = n /\ cells (dn_g d) = 2 * m /\ length (dn_cur d) = n /\ length (dn_h d) = n.
Proof.
  intros T n ops d outs R. cbv zeta.
  enough (G : forall ops m d0 d outs, dn_dims n m d0 -> run (dn_step T) d0 ops = Ok (d, outs) -> dn_dims n (m + length (dn_edges ops)) d).
  { refine (proj2 (G ops 0 (dn_new n) d outs _ R)). split_and!; try reflexivity; try apply replicate_length. apply cells_replicate. }
  clear. induction ops as [|o ops IH]; intros m d0 d outs D R; cbn [run] in R; [injection R as <- <-; rewrite Nat.add_0_r; exact D|].
  apply rbind_ok_inv in R as ([d1 out] & E & R). pose proof (kp_dn_step T n m d0 o D _ E) as D1. cbn [fst] in D1. apply rbind_ok_inv in R as ([d2 outs2] & R & R'). injection R' as <- <-. specialize (IH _ _ _ _ D1 R).
  destruct o; cbn [dn_edges length]; [rewrite <- Nat.add_succ_comm|]; exact IH.
Qed.
Print Assumptions C131_dinic.
Fixpoint added (ops : list bm_op) : list (nat * nat) := match ops with [] => [] | BmEdge u v :: ops => (u, v) :: added ops | BmSolve :: ops => added ops end.
Theorem C131_matching : forall n k ops b outs, run bm_step (bm_new n k) ops = Ok (b, outs) ->
  cells (bm_g b) = length (added ops) /\ length (bm_g b) = n /\ length (bm_l b) = n /\ length (bm_r b) = k /\ length (bm_vis b) = n.
Proof.
  intros n k ops b outs R.
  enough (G : forall ops m b0 b outs, bm_dims n k m b0 -> run bm_step b0 ops = Ok (b, outs) -> bm_dims n k (m + length (added ops)) b).
  { destruct (G ops 0 (bm_new n k) b outs) as (H1 & H2 & H3 & H4 & H5); [|exact R|split_and!; assumption]. split_and!; try apply replicate_length. apply cells_replicate. }
  clear. induction ops as [|o ops IH]; intros m b0 b outs D R; cbn [run] in R; [injection R as <- <-; rewrite Nat.add_0_r; exact D|].
  apply rbind_ok_inv in R as ([b1 out] & E & R). pose proof (kp_bm_step n k m b0 o D _ E) as D1. cbn [fst] in D1. apply rbind_ok_inv in R as ([b2 outs2] & R & R'). injection R' as <- <-. specialize (IH _ _ _ _ D1 R).
  destruct o; cbn [added length]; [rewrite <- Nat.add_succ_comm|]; exact IH.
Qed.
Print Assumptions C131_matching.
(** AhoCorasick: every node has N successors; insert adds at most a node per byte, build none.  Any automaton, any order of calls. *)
Theorem C131_aho : forall off N a s i fuel a', (forall x, x ∈ ah_nodes a -> length (nd_next x) = N) ->
  (aho_insert off N a s i = Ok a' -> length (ah_nodes a') <= length (ah_nodes a) + length s /\ forall x, x ∈ ah_nodes a' -> length (nd_next x) = N) /\
  (build_fuel N fuel a = Ok a' -> length (ah_nodes a') <= length (ah_nodes a) /\ forall x, x ∈ ah_nodes a' -> length (nd_next x) = N).
Proof.
  intros off N a s i fuel a' H. assert (D : ah_dims N (length (ah_nodes a)) (ah_nodes a)) by (split; [lia|]; apply Forall_forall; exact H). split; intros E.
  - destruct (kp_insert off N _ a s i D a' E) as [H1 H2]. split; [exact H1|]. apply Forall_forall. exact H2.
  - destruct (kp_build N _ fuel a D a' E) as [H1 H2]. split; [exact H1|]. apply Forall_forall. exact H2.
Qed.
Print Assumptions C131_aho.
(** dijkstra: the heap never holds more than one entry per edge and one for the start. *)
Theorem C131_dijkstra : forall (B : binheap (reverse (Z * nat))) content, binheap_contract (rev_le pair_le) B content ->
  forall g s dis q, nonneg g -> turns B g s (dis, q) -> length dis = length g /\ bh_len B q <= 1 + length (concat g).
Proof.
  intros B content HB g s dis q Hg H. destruct (turns_inv B content HB g s Hg _ H) as (_ & Hd & P & _ & Hm). split; [exact Hd|]. cbn [fst snd] in Hm. rewrite (bc_len _ _ _ HB). unfold bag in Hm. rewrite map_length in Hm. lia.
Qed.
Print Assumptions C131_dijkstra.

(** Concrete cases: three values take a segment tree of 8; a lazy tree of 8 and 4; four edges 8 half-edges; a word of two bytes two nodes; the bounds are reached. *)
Example C131_segtree_nonvacuous : exists t outs, st_from 0 Nat.add [5; 6; 7] ≫= (fun t0 => run (st_step 0 Nat.add) t0 [SgSet 1 9; SgProd 0 3]) = Ok (t, outs) /\ length (sg_d t) = 8.
Proof. eexists _, _. split; vm_compute; reflexivity. Qed.
Example C131_sparse_nonvacuous : exists data, sp_from [3; 1; 2; 5; 4] 0 Nat.max = Ok data /\ grid 3 5 data.
Proof. eexists. split; [vm_compute; reflexivity|]. split; [reflexivity|]. repeat constructor. Qed.
Example C131_dinic_nonvacuous : exists d outs, run (dn_step i32) (dn_new 3) [DnEdge 0 1 5; DnEdge 1 2 3; DnFlow 0 2; DnEdge 0 2 1; DnFlow 0 2] = Ok (d, outs) /\ length (dn_e d) = 6 /\ cells (dn_g d) = 6.
Proof. eexists _, _. split_and!; vm_compute; reflexivity. Qed.
Example C131_matching_nonvacuous : exists b outs, run bm_step (bm_new 2 2) [BmEdge 0 1; BmEdge 0 1; BmSolve; BmEdge 1 0] = Ok (b, outs) /\ cells (bm_g b) = 3.
Proof. eexists _, _. split; vm_compute; reflexivity. Qed.
Example C131_aho_nonvacuous : exists a, aho_insert 97 26 (aho_new 26 1) [97; 98] 0 = Ok a /\ length (ah_nodes a) = length (ah_nodes (aho_new 26 1)) + 2 /\ forall x, x ∈ ah_nodes (aho_new 26 1) -> length (nd_next x) = 26.
Proof. eexists. split; [vm_compute; reflexivity|]. split; [vm_compute; reflexivity|]. apply Forall_forall. repeat constructor. Qed.
Example C131_dijkstra_nonvacuous : exists dis q, turns pheap ex_g 0 (dis, q) /\ bh_len pheap q = 2 /\ length (concat ex_g) = 6.
Proof.
  eexists _, _. split.
  - eapply turns_next; [apply turns_start; vm_compute; reflexivity|]. vm_compute. reflexivity.
  - split; reflexivity.
Qed.
