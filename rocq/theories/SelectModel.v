(** A client of Dinic: which items to take.  Not code of /repo. *)
From Verif Require Import Prelude IntModel DinicModel DinicSpec FlowRelModel.
Open Scope Z_scope.

(** Item k with profit p: an edge from the source n, or an edge to the sink n + 1 if p is a loss. *)
Fixpoint item_edges (n k : nat) (ps : list Z) : list fedge :=
  match ps with [] => [] | p :: ps => (if 0 <=? p then (n, k, p) else (k, S n, - p)) :: item_edges n (S k) ps end.
Definition pos_sum (ps : list Z) : Z := foldr (fun p a => Z.max 0 p + a) 0 ps.
(** rs: (u, v, c): taking u without v costs c.  The sum of the profits minus d.get_max_flow(n, n + 1). *)
Definition best_gain (T : ity) (ps : list Z) (rs : list fedge) : res Z :=
  let n := length ps in
  v ← max_flow_of T (n + 2) (item_edges n 0 ps ++ rs) n (S n);
  Ok (pos_sum ps - v).
(** qs: (u, v): taking u requires v.  The penalty is T::MAX. *)
Definition best_closed (T : ity) (ps : list Z) (qs : list (nat * nat)) : res Z := best_gain T ps (map (fun q => (q, it_max T)) qs).
Close Scope Z_scope.
