(** Shortest walks in a weighted digraph given by adjacency lists of (target, weight). *)
From Verif Require Import Prelude.
Open Scope Z_scope.

Inductive walk (g : list (list (nat * Z))) (s : nat) : nat -> Z -> Prop :=
| walk_nil : walk g s s 0
| walk_snoc u w es v c : walk g s u w -> g !! u = Some es -> (v, c) ∈ es -> walk g s v (w + c).

(** d is the least weight of a walk from s to v. *)
Definition shortest g s v d : Prop := walk g s v d /\ forall w, walk g s v w -> d <= w.

Definition nonneg (g : list (list (nat * Z))) : Prop := forall u es v c, g !! u = Some es -> (v, c) ∈ es -> 0 <= c.

(** Edge targets are vertices and weights are non-negative. *)
Definition wf_graph (g : list (list (nat * Z))) : Prop :=
  forall u es v c, g !! u = Some es -> (v, c) ∈ es -> (v < length g)%nat /\ 0 <= c.
Close Scope Z_scope.
