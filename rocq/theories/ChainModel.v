(** A client of AugmentedPath (bipartite_matching.rs): how few paths cover a directed acyclic graph.  Not code of /repo. *)
From Verif Require Import Prelude UtilModel MatchingModel MatchRelModel.

(** Every vertex is once a left and once a right vertex; n - solve(), a subtraction of usize. *)
Definition path_cover_size (n : nat) (E : list (nat * nat)) : res nat :=
  k ← match_size n n E;
  nsub n k.
