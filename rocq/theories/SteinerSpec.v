(** Connected sets of vertices. *)
From Verif Require Import Prelude TreeSpec.

(** Any two vertices of S are joined by a walk inside S. *)
Definition connected (g : list (list nat)) (S : list nat) : Prop := forall x y, x ∈ S -> y ∈ S -> exists p, walk g x y p /\ p ⊆ S.
(** S, without repetition, is the least connected set that contains vs. *)
Definition hull (g : list (list nat)) (vs S : list nat) : Prop :=
  NoDup S /\ vs ⊆ S /\ connected g S /\ forall W, vs ⊆ W -> connected g W -> S ⊆ W.
