(** Property C89: the running time of src/graph/bipartite_matching.rs, src/graph/tarjan.rs and src/graph/max_flow.rs *)
From Verif Require Import Prelude Eff IntModel ArraySpec MatchingModel MatchingSpec MatchingProof MatchingProps SccModel SccSpec SccProps DinicModel DinicSpec DinicProof DinicProps GraphWorkModel GraphWorkSpec GraphWorkProof GraphFlowWorkProof.
From Verif Require AhoWorkSpec SccExactProof.

(** C89, matching: any history on AugmentedPath::new(n, m), whatever the arguments: the counting run does what the run of C23 does, in
    at most (n + solves) (1 + 3 n + 3 edges) + solves n calls, loop turns and cells filled. A history with one solve takes at
    most (n + 1) (1 + 3 n + 3 edges) + n of them; each further solve adds one round without success, not n of them. *)
Theorem C89_matching : forall n m ops,
  within (erun bm_stepW (bm_new n m) ops) (run bm_step (bm_new n m) ops)
    ((n + solves ops) * (1 + 3 * n + 3 * added ops) + solves ops * n).
Proof.
  intros n m ops. eapply costs_within, spends_weak; [apply (bm_history_cost n m (added ops) ops [] _ (bm_new_inv n m))| |auto].
  - cbn [bm_g bm_new]. assert (E : forall k, length (concat (replicate k (@nil nat))) = 0) by (induction k as [|k IH]; [reflexivity|exact IH]). rewrite E. lia.
  - apply Nat.add_le_mono_r, Nat.mul_le_mono_r. lia.
Qed.
Print Assumptions C89_matching.

(** C89, components: on every graph, also one with edges out of range, scc does what C25 says in at most 5 n + m calls, loop turns and
    pops. *)
Theorem C89_scc : forall g, within (sccW g) (scc g) (5 * length g + length (concat g)).
Proof. intros g. eapply costs_within, scc_cost. Qed.
Print Assumptions C89_scc.
(** C89, components exactly: on a graph whose edges are in range the count is 4 n + m plus the number of components found. *)
Theorem C89_scc_exact : forall g,
  (forall u v, edge g u v -> v < length g) -> (Z.of_nat (length g) <= 2 ^ 31 - 1)%Z ->
  AhoWorkSpec.costs (sccW g) (scc g) (fun x => 4 * length g + length (concat g) + x.1).
Proof. apply SccExactProof.scc_exact. Qed.
Print Assumptions C89_scc_exact.

(** C89, flow: any history on Dinic::new(n), whatever the arguments: the counting run does what the run of C24 does, and every
    get_max_flow takes at most dinic_steps n m, which is of the order of n^2 m, calls, loop turns and cells filled for m edges. *)
Theorem C89_dinic : forall T n ops, T ∈ prim_types ->
  within (erun (dn_stepW T) (dn_new n) ops) (run (dn_step T) (dn_new n) ops) (flows ops * dinic_steps n (arcs ops)).
Proof.
  intros T n ops HT. destruct (prim_bounds T HT) as [H1 H2]. eapply costs_within, (dn_history_cost T n (arcs ops) ops); [lia|apply dn_new_shape|lia].
Qed.
Print Assumptions C89_dinic.

(** C89 with C23, C25 and C24: right answers within the bounds. *)
Theorem C89_matching_answers : forall n m ops,
  Forall (fun o => match o with BmEdge u v => u < n /\ v < m | BmSolve => True end) ops ->
  exists b outs k, erun bm_stepW (bm_new n m) ops 0 = Ok ((b, outs), k) /\ bm_spec n m [] ops outs /\
    k <= (n + solves ops) * (1 + 3 * n + 3 * added ops) + solves ops * n.
Proof.
  intros n m ops H. destruct (C23_matching n m ops H) as (b & outs & E & Hs). pose proof (C89_matching n m ops 0) as W. rewrite E in W.
  destruct W as (k & Ek & Hk). exists b, outs, k. auto.
Qed.
Print Assumptions C89_matching_answers.
Theorem C89_scc_answers : forall g,
  (forall u v, edge g u v -> v < length g) -> (Z.of_nat (length g) <= 2 ^ 31 - 1)%Z ->
  exists cnt col k, sccW g 0 = Ok ((cnt, col), k) /\ k = 4 * length g + length (concat g) + cnt /\ length col = length g /\
    (forall u v a b, col !! u = Some a -> col !! v = Some b -> (a = b <-> reach g u v /\ reach g v u)).
Proof.
  intros g Hg Hn. destruct (C25_scc g Hg Hn) as (cnt & col & E & H1 & _ & _ & H2). pose proof (C89_scc_exact g Hg Hn 0) as W. rewrite E in W.
  exists cnt, col. eexists. split; [exact W|]. split; [reflexivity|]. auto.
Qed.
Print Assumptions C89_scc_answers.
Theorem C89_dinic_answers : forall T n s t ops,
  T ∈ prim_types -> (Z.of_nat n <= 2 ^ 31 - 1)%Z -> s < n -> t < n -> s <> t ->
  Forall (fun o => match o with
                   | DnEdge u v c => u < n /\ v < n /\ (0 <= c <= it_max T)%Z
                   | DnFlow s' t' => s' = s /\ t' = t end) ops ->
  (forall fs, feasible (dn_edges ops) s t fs -> (flow_value (dn_edges ops) s fs <= it_max T)%Z) ->
  exists d outs k, erun (dn_stepW T) (dn_new n) ops 0 = Ok ((d, outs), k) /\ dn_spec s t [] 0 ops outs /\ k <= flows ops * dinic_steps n (arcs ops).
Proof.
  intros T n s t ops HT Hn Hs Ht Hst Hops Hmax. destruct (C24_dinic T n s t ops HT Hn Hs Ht Hst Hops Hmax) as (d & outs & E & Hd).
  pose proof (C89_dinic T n ops HT 0) as W. rewrite E in W. destruct W as (k & Ek & Hk). exists d, outs, k. auto.
Qed.
Print Assumptions C89_dinic_answers.

(** The counts on the examples of C23, C25 and C24, beside the bounds. *)
Example C89_nonvacuous :
  (exists b outs, erun bm_stepW (bm_new 3 3) ex_ops 0 = Ok ((b, outs), 97) /\ (3 + solves ex_ops) * (1 + 3 * 3 + 3 * added ex_ops) + solves ex_ops * 3 = 187) /\
  (exists r, sccW SccProps.ex_g 0 = Ok (r, 43) /\ 4 * length SccProps.ex_g + length (concat SccProps.ex_g) + r.1 = 43 /\ 5 * length SccProps.ex_g + length (concat SccProps.ex_g) = 46) /\
  (exists d outs, erun (dn_stepW i32) (dn_new 4) ex_net 0 = Ok ((d, outs), 135) /\ flows ex_net * dinic_steps 4 (arcs ex_net) = 3120).
Proof.
  split; [|split].
  - eexists _, _. vm_compute. auto.
  - eexists. vm_compute. auto.
  - eexists _, _. vm_compute. auto.
Qed.
