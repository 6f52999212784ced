(** Lengths of paths, for the nesting of the searches. *)
From Verif Require Import Prelude TreeSpec DinicSpec.

(** No path of the graph g visits more than k vertices without repeating one. *)
Definition paths_upto (g : list (list nat)) (k : nat) : Prop := forall u v l, walk g u v l -> NoDup l -> length l <= k.

(** One can go from u to v along d edges of the network es that have capacity. *)
Inductive fwalk (es : list fedge) : nat -> nat -> nat -> Prop :=
| fw_nil u : fwalk es u u 0
| fw_cons u w v c d : (u, w, c) ∈ es -> (0 < c)%Z -> fwalk es w v d -> fwalk es u v (S d).
(** Going from s to t takes at least k edges, and is possible. *)
Definition far (es : list fedge) (s t k : nat) : Prop := (exists d, fwalk es s t d) /\ forall d, fwalk es s t d -> k <= d.
