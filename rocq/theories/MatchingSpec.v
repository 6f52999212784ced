(** Maximum matchings of a bipartite graph given as a list of edges; no reference to the algorithm. *)
From Verif Require Import Prelude MatchingModel.

(** M uses only edges of E and no vertex twice. *)
Definition matching (E M : list (nat * nat)) : Prop :=
  (forall e, e ∈ M -> e ∈ E) /\ NoDup M.*1 /\ NoDup M.*2.

Definition max_matching_size (E : list (nat * nat)) (k : nat) : Prop :=
  (exists M, matching E M /\ length M = k) /\ forall M, matching E M -> length M <= k.

(** Histories of calls: the state is the list of edges added so far. *)
Inductive bm_spec (n m : nat) : list (nat * nat) -> list bm_op -> list (option nat) -> Prop :=
| bs_nil E : bm_spec n m E [] []
| bs_edge E u v ops outs : u < n -> v < m -> bm_spec n m (E ++ [(u, v)]) ops outs ->
    bm_spec n m E (BmEdge u v :: ops) (None :: outs)
| bs_solve E k ops outs : max_matching_size E k -> bm_spec n m E ops outs -> bm_spec n m E (BmSolve :: ops) (Some k :: outs).

(** Calls with any arguments.  add_edge rejects a left vertex out of range; solve may panic only when an edge to a right vertex
    out of range has been added.  Otherwise it returns the size of a maximum matching of all added edges, reached by edges whose
    ends are in range. *)
Inductive bm_allowed (n m : nat) : list (nat * nat) -> list bm_op -> res (list (option nat)) -> Prop :=
| ba_nil E : bm_allowed n m E [] (Ok [])
| ba_edge E u v ops r : u < n -> bm_allowed n m (E ++ [(u, v)]) ops r -> bm_allowed n m E (BmEdge u v :: ops) (cons None <$> r)
| ba_bad_edge E u v ops : n <= u -> bm_allowed n m E (BmEdge u v :: ops) Panic
| ba_solve E k ops r : max_matching_size E k -> (exists M, matching E M /\ length M = k /\ forall e, e ∈ M -> e.2 < m) ->
    bm_allowed n m E ops r -> bm_allowed n m E (BmSolve :: ops) (cons (Some k) <$> r)
| ba_bad_solve E u v ops : (u, v) ∈ E -> m <= v -> bm_allowed n m E (BmSolve :: ops) Panic.
