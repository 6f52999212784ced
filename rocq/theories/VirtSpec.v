(** Sets of vertices closed under lowest common ancestors. *)
From Verif Require Import Prelude TreeSpec.

Definition lca_closed (g : list (list nat)) (root : nat) (V : list nat) : Prop :=
  forall x y l, x ∈ V -> y ∈ V -> l < length g -> is_lca g root x y l -> l ∈ V.
(** V is the least closed set that contains vs. *)
Definition closure_of (g : list (list nat)) (root : nat) (vs V : list nat) : Prop :=
  vs ⊆ V /\ lca_closed g root V /\ forall W, vs ⊆ W -> lca_closed g root W -> V ⊆ W.
(** p is the lowest element of V that is a proper ancestor of x. *)
Definition parent_in (g : list (list nat)) (root : nat) (V : list nat) (x p : nat) : Prop :=
  p ∈ V /\ p <> x /\ ancestor g root p x /\ forall w, w ∈ V -> w <> x -> ancestor g root w x -> ancestor g root w p.
