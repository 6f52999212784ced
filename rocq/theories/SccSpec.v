(** Strong connectivity. *)
From stdpp Require Import relations.
From Verif Require Import Prelude.

(** There is an edge u -> v; there is a path u ->* v. *)
Definition edge (g : list (list nat)) (u v : nat) : Prop := exists es, g !! u = Some es /\ v ∈ es.
Definition reach (g : list (list nat)) : nat -> nat -> Prop := rtc (edge g).
