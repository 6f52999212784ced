(** What "a monoid" means for operations that are total on a set of values, and for operations that may panic. *)
From Verif Require Import Prelude.

(** A total order given by a three-way comparison (Rust's Ord, with Equal only for equal values). *)
Record total_order {S} (cmp : S -> S -> comparison) : Prop := {
  to_eq : forall a b, cmp a b = Eq <-> a = b;
  to_sym : forall a b, cmp b a = CompOpp (cmp a b);
  to_trans : forall a b c, cmp a b = Lt -> cmp b c = Lt -> cmp a c = Lt }.

Record monoid_on {S} (V : S -> Prop) (e : S) (op : S -> S -> S) : Prop := {
  mo_unit : V e;
  mo_closed : forall a b, V a -> V b -> V (op a b);
  mo_assoc : forall a b c, V a -> V b -> V c -> op a (op b c) = op (op a b) c;
  mo_idl : forall a, V a -> op e a = a;
  mo_idr : forall a, V a -> op a e = a }.

(** op panics or gives a value: units never panic, and two bracketings that both succeed agree. *)
Record partial_monoid_on {S} (V : S -> Prop) (e : S) (op : S -> S -> res S) : Prop := {
  pm_unit : V e;
  pm_closed : forall a b c, V a -> V b -> op a b = Ok c -> V c;
  pm_halts : forall a b, op a b <> Diverge;
  pm_assoc : forall a b c ab bc l r, V a -> V b -> V c -> op a b = Ok ab -> op ab c = Ok l -> op b c = Ok bc -> op a bc = Ok r -> l = r;
  pm_idl : forall a, V a -> op e a = Ok a;
  pm_idr : forall a, V a -> op a e = Ok a }.
