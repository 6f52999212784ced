(** Trees given by adjacency lists; walks, ancestors, distances. *)
From Verif Require Import Prelude.
From Verif Require Export SccSpec.

(** Walks of the graph, with the vertices visited. *)
Inductive walk (g : list (list nat)) : nat -> nat -> list nat -> Prop :=
| walk_nil u : walk g u u [u]
| walk_cons u w v l : edge g u w -> walk g w v l -> walk g u v (u :: l).

(** An undirected tree on the vertices 0..length g, as adjacency lists in any order: neighbour lists have no repetition or
    self-loop, edges are listed at both ends, and between any two vertices there is exactly one walk without repeated vertex. *)
Record is_tree (g : list (list nat)) : Prop := {
  tree_nodup : forall u es, g !! u = Some es -> NoDup es;
  tree_irrefl : forall u, ~ edge g u u;
  tree_sym : forall u v, edge g u v -> edge g v u;
  tree_path : forall u v, u < length g -> v < length g -> exists l, walk g u v l /\ NoDup l;
  tree_unique : forall u v l l', walk g u v l -> NoDup l -> walk g u v l' -> NoDup l' -> l = l' }.

(** u is on the way from the root to v: every walk from the root to v visits u. *)
Definition ancestor (g : list (list nat)) (root u v : nat) : Prop := forall l, walk g root v l -> u ∈ l.
(** l is the lowest common ancestor. *)
Definition is_lca (g : list (list nat)) (root u v l : nat) : Prop :=
  ancestor g root l u /\ ancestor g root l v /\
  forall w, w < length g -> ancestor g root w u -> ancestor g root w v -> ancestor g root w l.
(** d is the number of edges of a shortest walk. *)
Definition is_dist (g : list (list nat)) (u v d : nat) : Prop :=
  (exists l, walk g u v l /\ length l = S d) /\ forall l, walk g u v l -> S d <= length l.
