(** Trees of edges picked from a list. *)
From Verif Require Import Prelude LinkSpec.

(** The edges with the given indices. *)
Definition pick (es : list (nat * nat * Z)) (F : list nat) : list (nat * nat * Z) := omap (fun i => es !! i) F.

(** Edges of es that connect to the root all that es connects to it. *)
Definition spans (es : list (nat * nat * Z)) (root : nat) (T : list (nat * nat * Z)) : Prop :=
  (forall e, e ∈ T -> e ∈ es) /\ forall v, conn (map fst es) root v -> conn (map fst T) root v.
