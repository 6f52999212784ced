(** Relations between graphs. *)
From Verif Require Import Prelude SccSpec.

(** Edges stay inside the graph, and i32 can number the vertices. *)
Definition valid (g : list (list nat)) : Prop := (forall u v, edge g u v -> v < length g) /\ (Z.of_nat (length g) <= 2 ^ 31 - 1)%Z.
(** u and v reach each other. *)
Definition mutual (g : list (list nat)) (u v : nat) : Prop := reach g u v /\ reach g v u.
(** k vertices, one of each strong component. *)
Definition components (g : list (list nat)) (k : nat) : Prop := exists reps,
  length reps = k /\ (forall u, u ∈ reps -> u < length g) /\
  (forall i j u v, reps !! i = Some u -> reps !! j = Some v -> mutual g u v -> i = j) /\
  (forall v, v < length g -> exists u, u ∈ reps /\ mutual g u v).
(** col' tells the vertices f u apart exactly as col tells the vertices u apart. *)
Definition same_partition (f : nat -> nat) (col col' : list nat) : Prop :=
  forall u v a b a' b', col !! u = Some a -> col !! v = Some b -> col' !! f u = Some a' -> col' !! f v = Some b' -> (a = b <-> a' = b').
(** h is g with the vertex u called f u. *)
Definition renaming (f : nat -> nat) (g h : list (list nat)) : Prop :=
  length h = length g /\ (forall u, u < length g -> f u < length g) /\ (forall u v, u < length g -> v < length g -> f u = f v -> u = v) /\
  forall u v, u < length g -> v < length g -> (edge h (f u) (f v) <-> edge g u v).
(** g and h side by side. *)
Definition beside (g h : list (list nat)) : list (list nat) := g ++ map (map (fun v => length g + v)) h.
