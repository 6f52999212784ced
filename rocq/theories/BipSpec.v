(** Two-colourings and odd closed walks of an undirected graph. *)
From Verif Require Import Prelude.

Definition proper (es : list (nat * nat)) (c : nat -> bool) : Prop := forall u v, (u, v) ∈ es -> c u <> c v.
(** A walk of k edges from u to v. *)
Inductive wk (es : list (nat * nat)) : nat -> nat -> nat -> Prop :=
| wk_nil u : wk es 0 u u
| wk_step k u v w : (u, v) ∈ es \/ (v, u) ∈ es -> wk es k v w -> wk es (S k) u w.
