(** Property C23: src/graph/bipartite_matching.rs *)
From Verif Require Import Prelude ArraySpec MatchingModel MatchingSpec MatchingProof.

(** C23: any history of add_edge (in range) and solve calls on AugmentedPath::new(n, m) runs without panic, every solve
    terminates and returns the maximum size of a matching of the edges added so far. *)
Theorem C23_matching : forall n m ops,
  Forall (fun o => match o with BmEdge u v => u < n /\ v < m | BmSolve => True end) ops ->
  exists b outs, run bm_step (bm_new n m) ops = Ok (b, outs) /\ bm_spec n m [] ops outs.
Proof.
  intros n m ops H. destruct (bm_history n m ops [] (bm_new n m) (bm_new_inv n m)) as [Ha _].
  apply bm_allowed_valid in Ha as (outs & E & Hs); [|exact H|intros u v Hv; inversion Hv].
  destruct (run bm_step (bm_new n m) ops) as [[b outs']| |]; cbn in E; try discriminate. injection E as ->. eauto.
Qed.
Print Assumptions C23_matching.

(** The matching stored in l and r after a solve that returns: along added edges, l and r inverse to each other, of the returned
    size. *)
Theorem C23_stored_matching : forall n m ops b outs b' k,
  run bm_step (bm_new n m) ops = Ok (b, outs) -> bm_solve b = Ok (b', k) ->
  exists M, matching (edges_of ops) M /\ length M = k /\
    (forall u v, (u, v) ∈ M <-> bm_l b' !! u = Some (Some v)) /\
    (forall u v, bm_l b' !! u = Some (Some v) <-> bm_r b' !! v = Some (Some u)).
Proof.
  intros n m ops b outs b' k Hrun Hs. destruct (bm_history n m ops [] (bm_new n m) (bm_new_inv n m)) as [_ B].
  specialize (B b outs Hrun). destruct B as [B1 B3 B4 B5]. destruct b as [g l r vis]. cbn [bm_g bm_l bm_r bm_vis] in *.
  destruct (bm_solve_ok n m g B1 _ B3 l r vis B4 B5) as [[E' _]|(l' & r' & vis' & E' & Hv' & Hok' & HM & Hmax)]; [congruence|].
  rewrite E' in Hs. injection Hs as <- <-.
  exists (pairs l'). split; [exact HM|]. split; [unfold pairs; apply map_length|]. cbn [bm_l bm_r].
  split; [intros; apply pairs_spec|]. intros u v. split; [apply (mk_lr _ _ _ _ _ Hok')|apply (mk_rl _ _ _ _ _ Hok')].
Qed.
Print Assumptions C23_stored_matching.

(** Every history of calls with any arguments: the only panics are a left vertex out of range in add_edge, and a solve after an
    edge to a right vertex out of range; a solve that returns is right even then. *)
Theorem C23_any_history : forall n m ops, bm_allowed n m [] ops (snd <$> run bm_step (bm_new n m) ops).
Proof. intros n m ops. apply (bm_history n m ops [] (bm_new n m) (bm_new_inv n m)). Qed.
Print Assumptions C23_any_history.

(** An edge to a right vertex out of range: met by solve, not met by solve, and a left vertex out of range. *)
Example C23_any_nonvacuous :
  snd <$> run bm_step (bm_new 2 1) [BmEdge 0 1; BmSolve] = Panic /\
  snd <$> run bm_step (bm_new 2 1) [BmEdge 0 0; BmEdge 0 1; BmSolve] = Ok [None; None; Some 1] /\
  snd <$> run bm_step (bm_new 2 1) [BmEdge 2 0] = Panic.
Proof. vm_compute. auto. Qed.

Definition ex_ops : list bm_op := [BmSolve; BmEdge 0 0; BmEdge 1 0; BmSolve; BmEdge 0 1; BmSolve; BmEdge 2 1; BmEdge 1 2; BmSolve].
Example C23_nonvacuous : Forall (fun o => match o with BmEdge u v => u < 3 /\ v < 3 | BmSolve => True end) ex_ops /\
  exists b, run bm_step (bm_new 3 3) ex_ops = Ok (b, [Some 0; None; None; Some 1; None; Some 2; None; None; Some 3]).
Proof. split; [repeat constructor|eexists; vm_compute; reflexivity]. Qed.
