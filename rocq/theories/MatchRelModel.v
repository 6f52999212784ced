(** Client code over AugmentedPath (bipartite_matching.rs).  Not code of /repo. *)
From Verif Require Import Prelude ArraySpec MatchingModel.

(** new(n, m), add_edge for every edge of E, solve *)
Definition match_size (n m : nat) (E : list (nat * nat)) : res nat :=
  x ← run bm_step (bm_new n m) (map (fun e => BmEdge e.1 e.2) E);
  y ← bm_solve x.1;
  Ok y.2.
