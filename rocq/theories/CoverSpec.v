(** Vertex covers, neighbourhoods and independent sets of a bipartite graph given as a list of edges, and its unit network;
    no reference to the algorithms. *)
From Verif Require Import Prelude DinicSpec.

(** Every edge has its left end in L or its right end in R. *)
Definition covers (E : list (nat * nat)) (L R : list nat) : Prop := forall u v, (u, v) ∈ E -> u ∈ L \/ v ∈ R.
Definition min_cover_size (E : list (nat * nat)) (k : nat) : Prop :=
  (exists L R, covers E L R /\ length L + length R = k) /\ forall L R, covers E L R -> k <= length L + length R.

(** A is a set of left vertices below n; B contains all their neighbours. *)
Definition left_set (n : nat) (A : list nat) : Prop := NoDup A /\ forall u, u ∈ A -> u < n.
Definition neighbours_in (E : list (nat * nat)) (A B : list nat) : Prop := forall u v, u ∈ A -> (u, v) ∈ E -> v ∈ B.

(** Hall's condition: every set of left vertices has at least as many neighbours. *)
Definition hall (n : nat) (E : list (nat * nat)) : Prop :=
  forall A B, left_set n A -> neighbours_in E A B -> length A <= length B.

(** Left vertices A and right vertices B with no edge between them. *)
Definition independent (n m : nat) (E : list (nat * nat)) (A B : list nat) : Prop :=
  left_set n A /\ left_set m B /\ forall u v, (u, v) ∈ E -> u ∈ A -> v ∈ B -> False.

(** The network for Dinic: left vertex u is u, right vertex v is n + v, the source n + m sends one unit to every left vertex, every
    right vertex sends one unit to the sink n + m + 1; the edges of the graph carry any capacity. *)
Definition unit_net (n m : nat) (E : list (nat * nat * Z)) : list fedge :=
  map (fun u => (n + m, u, 1%Z)) (seq 0 n) ++
  map (fun e => (e.1.1, n + e.1.2, e.2)) E ++
  map (fun v => (n + v, n + m + 1, 1%Z)) (seq 0 m).
