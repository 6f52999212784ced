(** Steps and nesting of the depth-first searches on trees. *)
From Verif Require Import Prelude TreeSpec.

(** Every vertex is less than k edges away from r. *)
Definition closer_than (g : list (list nat)) (r k : nat) : Prop := forall v d, v < length g -> is_dist g r v d -> d < k.
