(** Model of src/misc/monoids.rs and of the traits it uses in src/traits/numeric.rs. *)
From Verif Require Import Prelude IntModel.

(** std::cmp::max and min on an Ord type with comparison cmp: on a tie max returns its second argument, min its first. *)
Definition ord_max {S} (cmp : S -> S -> comparison) (a b : S) : S := match cmp a b with Gt => a | _ => b end.
Definition ord_min {S} (cmp : S -> S -> comparison) (a b : S) : S := match cmp a b with Gt => b | _ => a end.

(** monoids.rs:8-20  Max: identity is BoundedBelow::min_value(), the operation is max of a and b.
    For any Ord type: cmp and the bound are parameters. *)
Definition max_identity {S} (min_value : S) : S := min_value.
Definition max_op {S} (cmp : S -> S -> comparison) (a b : S) : S := ord_max cmp a b.
(** monoids.rs:22-34  Min: identity is BoundedAbove::max_value() *)
Definition min_identity {S} (max_value : S) : S := max_value.
Definition min_op {S} (cmp : S -> S -> comparison) (a b : S) : S := ord_min cmp a b.

(** numeric.rs:14-56  the constants of the primitive types *)
Definition prim_zero : Z := 0.
Definition prim_one : Z := 1.
Definition prim_min_value (T : ity) : Z := it_min T.
Definition prim_max_value (T : ity) : Z := it_max T.

(** monoids.rs:36-48  Additive on a primitive type: a + b, which panics on overflow *)
Definition add_identity : Z := prim_zero.
Definition add_op (T : ity) (a b : Z) : res Z := iadd T a b.
(** monoids.rs:50-62  Multiplicative *)
Definition mul_identity : Z := prim_one.
Definition mul_op (T : ity) (a b : Z) : res Z := imul T a b.
