(** Maximum matching after caught panics: the state is the list of the edges accepted so far. *)
From Verif Require Import Prelude MatchingModel MatchingSpec.

(** The answers of a history in which every panic is caught, None for the calls that unwound.  add_edge refuses a left vertex
    out of range and then leaves nothing behind.  solve gives up only when an edge to a right vertex out of range has been
    accepted; whatever it had matched until then, the answers that come later are those of the accepted edges. *)
Inductive bm_after (n m : nat) : list (nat * nat) -> list bm_op -> list (option (option nat)) -> Prop :=
| bf_nil E : bm_after n m E [] []
| bf_edge E u v ops outs : u < n -> bm_after n m (E ++ [(u, v)]) ops outs -> bm_after n m E (BmEdge u v :: ops) (Some None :: outs)
| bf_bad_edge E u v ops outs : n <= u -> bm_after n m E ops outs -> bm_after n m E (BmEdge u v :: ops) (None :: outs)
| bf_solve E k ops outs : max_matching_size E k -> (exists M, matching E M /\ length M = k /\ forall e, e ∈ M -> e.2 < m) ->
    bm_after n m E ops outs -> bm_after n m E (BmSolve :: ops) (Some (Some k) :: outs)
| bf_bad_solve E u v ops outs : (u, v) ∈ E -> m <= v -> bm_after n m E ops outs -> bm_after n m E (BmSolve :: ops) (None :: outs).
