(** Covering a directed graph on 0 .. n - 1 by disjoint paths; antichains. *)
From Verif Require Import Prelude.
From stdpp Require Import relations.

Fixpoint linked (E : list (nat * nat)) (p : list nat) : Prop :=
  match p with a :: ((b :: _) as t) => (a, b) ∈ E /\ linked E t | _ => True end.
(** Every vertex lies on exactly one of the paths ps, which follow edges. *)
Definition path_cover (n : nat) (E : list (nat * nat)) (ps : list (list nat)) : Prop := concat ps ≡ₚ seq 0 n /\ Forall (fun p => p <> [] /\ linked E p) ps.
Definition acyclic (E : list (nat * nat)) : Prop := forall u, ~ tc (fun a b => (a, b) ∈ E) u u.
Definition transitive_edges (E : list (nat * nat)) : Prop := forall a b c, (a, b) ∈ E -> (b, c) ∈ E -> (a, c) ∈ E.
(** Vertices no two of which are joined. *)
Definition antichain (n : nat) (E : list (nat * nat)) (A : list nat) : Prop := NoDup A /\ (forall x, x ∈ A -> x < n) /\ forall x y, x ∈ A -> y ∈ A -> (x, y) ∉ E.
