(** Modint values as elements of the data structures (src/misc/modint.rs with src/data_structure/segtree.rs and lazy_segtree.rs). *)
From Verif Require Import Prelude IntModel ModIntModel.
Open Scope Z_scope.

(** A modint value: what its field [val] (modint.rs:91, 317) can hold. *)
Definition reduced (m x : Z) : bool := (0 <=? x) && (x <? m).
Definition residue (m : Z) : Type := { x : Z | reduced m x = true }.
Definition rval {m} (x : residue m) : Z := proj1_sig x.

(** The outcome of an operator, as a modint again. *)
Definition as_residue (m : Z) (r : res Z) : res (residue m) :=
  match r with
  | Ok z => match decide (reduced m z = true) with left H => Ok (exist _ z H) | right _ => Panic end
  | Panic => Panic
  | Diverge => Diverge
  end.

(** The operators of the modint type with context c (ModIntModel.v): modint.rs:795-812, 824-834 *)
Definition rc_add (m : Z) (c : modctx) (x y : residue m) : res (residue m) := as_residue m (mi_add (mc_m c) (rval x) (rval y)).
Definition rc_mul (m : Z) (c : modctx) (x y : residue m) : res (residue m) := as_residue m (mc_mul c (rval x) (rval y)).

(** The two modint types with modulus m. *)
Definition modint_ctx (m : Z) (c : modctx) : Prop :=
  (exists hint, c = static_ctx m hint) \/ (exists br, set_modulus m = Ok br /\ c = dynamic_ctx br).

(** Monoids a user writes over modints (src/traits/monoid.rs).  A block of terms: their sum and their number ... *)
Definition rc_sum_op (m : Z) (c : modctx) (x y : residue m * residue m) : res (residue m * residue m) :=
  a ← rc_add m c x.1 y.1; b ← rc_add m c x.2 y.2; Ok (a, b).
(** ... the map t -> f.1 * t + f.2 on every term ... *)
Definition rc_affine (m : Z) (c : modctx) (f x : residue m * residue m) : res (residue m * residue m) :=
  p ← rc_mul m c f.1 x.1; q ← rc_mul m c f.2 x.2; a ← rc_add m c p q; Ok (a, x.2).
(** ... f after g ... *)
Definition rc_comp (m : Z) (c : modctx) (f g : residue m * residue m) : res (residue m * residue m) :=
  a ← rc_mul m c f.1 g.1; p ← rc_mul m c f.1 g.2; b ← rc_add m c p f.2; Ok (a, b).
(** ... and, as elements of a segment tree, first f, then g. *)
Definition rc_then (m : Z) (c : modctx) (f g : residue m * residue m) : res (residue m * residue m) := rc_comp m c g f.
Close Scope Z_scope.
