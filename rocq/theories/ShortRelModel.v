(** A client of dijkstra: the graph with all edges turned round.  Not code of /repo. *)
From Verif Require Import Prelude DijkstraModel.

(** let mut r = vec![vec![]; g.len()]; for u in 0..g.len() { for &(v, c) in &g[u] { r[v].push((u, c)); } } *)
Definition rev_graph (g : wgraph) : res wgraph :=
  rfor (range 0 (length g)) (fun u r =>
    es ← vget g u;
    rfor es (fun e r => row ← vget r e.1; vset r e.1 (row ++ [(u, e.2)])) r) (replicate (length g) []).
