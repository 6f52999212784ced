(** A tree hanging at a root in a graph that may have further vertices. *)
From Verif Require Import Prelude TreeSpec.

(** u can be reached from the root. *)
Definition reached (g : list (list nat)) (root u : nat) : Prop := exists l, walk g root u l.

(** What can be reached from the root is an undirected tree: neighbour lists there have no repetition or self-loop, edges are
    listed at both ends, and every vertex there has only one walk without repeated vertex from the root.  Nothing is asked of
    the other vertices (for instance vertex 0 of a tree on 1..n). *)
Record tree_at (g : list (list nat)) (root : nat) : Prop := {
  ta_root : root < length g;
  ta_nodup : forall u es, reached g root u -> g !! u = Some es -> NoDup es;
  ta_irrefl : forall u, reached g root u -> ~ edge g u u;
  ta_sym : forall u v, reached g root u -> edge g u v -> edge g v u;
  ta_unique : forall v l l', walk g root v l -> NoDup l -> walk g root v l' -> NoDup l' -> l = l' }.

Lemma is_tree_at g root : is_tree g -> root < length g -> tree_at g root.
Proof.
  intros T Hr. split; [exact Hr|..].
  - intros u es _. apply (tree_nodup _ T).
  - intros u _. apply (tree_irrefl _ T).
  - intros u v _. apply (tree_sym _ T).
  - intros v. apply (tree_unique _ T).
Qed.
