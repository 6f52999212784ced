(** Properties of bipartite matching after caught panics (C82). *)
From Verif Require Import Prelude ArraySpec Unwind MatchingModel MatchingSpec MatchingProof MatchingUnwindModel MatchingUnwindSpec MatchingUnwindProof.

(** C82: the programs that write step by step are those of MatchingModel.v. *)
Theorem C82_same_code : forall o b, strip (bmu_step o b) = bm_step b o.
Proof. exact strip_bm_step. Qed.
Print Assumptions C82_same_code.

(** C82: AugmentedPath with any calls, every panic caught and the structure used further. *)
Theorem C82_matching : forall n m ops, exists b outs, urun bmu_step (bm_new n m) ops = Ok (b, outs) /\ bm_after n m [] ops outs.
Proof. intros n m ops. apply bmu_history, bm_new_inv. Qed.
Print Assumptions C82_matching.

(** A solve that unwinds because dfs meets an edge to a right vertex out of range, and one that later succeeds with it; a
    refused edge in between. *)
Definition ex_caught : list bm_op := [BmEdge 0 0; BmEdge 0 9; BmEdge 1 0; BmSolve; BmEdge 2 0; BmEdge 1 1; BmSolve].
Example C82_nonvacuous : exists b, urun bmu_step (bm_new 2 2) ex_caught =
  Ok (b, [Some None; Some None; Some None; None; None; Some None; Some (Some 2)]).
Proof. eexists. vm_compute. reflexivity. Qed.
