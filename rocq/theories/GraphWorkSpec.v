(** Steps of the graph algorithms. *)
From Verif Require Import Prelude Eff MatchingModel DinicModel.

(** The counting program m returns what the program r returns, in at most c steps, whatever the counter is at the start. *)
Definition within {A} (m : eff nat A) (r : res A) (c : nat) : Prop :=
  forall w, match r with
    | Ok a => exists k, m w = Ok (a, w + k) /\ k <= c
    | Panic => m w = Panic
    | Diverge => m w = Diverge
    end.

(** Number of solve and of add_edge calls in a history *)
Fixpoint solves (ops : list bm_op) : nat :=
  match ops with [] => 0 | BmSolve :: ops => S (solves ops) | BmEdge _ _ :: ops => solves ops end.
Fixpoint added (ops : list bm_op) : nat :=
  match ops with [] => 0 | BmSolve :: ops => added ops | BmEdge _ _ :: ops => S (added ops) end.

(** Number of get_max_flow and of add_edge calls in a history of the flow structure *)
Fixpoint flows (ops : list dn_op) : nat :=
  match ops with [] => 0 | DnFlow _ _ :: ops => S (flows ops) | DnEdge _ _ _ :: ops => flows ops end.
Fixpoint arcs (ops : list dn_op) : nat :=
  match ops with [] => 0 | DnFlow _ _ :: ops => arcs ops | DnEdge _ _ _ :: ops => S (arcs ops) end.
(** One get_max_flow with n vertices and m edges: n + 2 phases *)
Definition dinic_steps (n m : nat) : nat := (n + 2) * (5 * n + 6 + (2 * n + 5) * (2 * m)).
