(** Powers and roots modulo p; no reference to the model. *)
From Coq Require Import ZArith.
Open Scope Z_scope.

(** x is a k-th root of a modulo p. *)
Definition root (p k a x : Z) : Prop := (p | x ^ k - a).
Close Scope Z_scope.
