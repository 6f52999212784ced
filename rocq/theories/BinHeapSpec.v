(** Orders, and bags without an order. *)
From Verif Require Import Prelude HeapModel.

(** cmp is a total order, as Ord demands: le is transitive, and cmp b a is the opposite of cmp a b.  Equivalent elements need not be equal. *)
Record ordered {A} (cmp : A -> A -> comparison) (le : A -> A -> Prop) : Prop := {
  or_le : forall a b, le a b <-> cmp a b <> Gt;
  or_opp : forall a b, cmp b a = CompOpp (cmp a b);
  or_trans : forall a b c, le a b -> le b c -> le a c }.

(** A bag whose pops and peeks yield any of its elements. *)
Inductive bag_spec {T} : list T -> mh_op T -> mh_out T -> list T -> Prop :=
| bs_push bag bag' x : bag' ≡ₚ x :: bag -> bag_spec bag (MhPush x) MhUnit bag'
| bs_pop_none : bag_spec [] MhPop (MhOpt None) []
| bs_pop_some bag bag' x : bag ≡ₚ x :: bag' -> bag_spec bag MhPop (MhOpt (Some x)) bag'
| bs_peek_none : bag_spec [] MhPeek (MhOpt None) []
| bs_peek_some bag x : x ∈ bag -> bag_spec bag MhPeek (MhOpt (Some x)) bag
| bs_len bag : bag_spec bag MhLen (MhNum (length bag)) bag
| bs_append bag bag' xs : bag' ≡ₚ bag ++ xs -> bag_spec bag (MhAppend xs) (MhNum 0) bag'
| bs_is_empty bag b : (b = true <-> bag = []) -> bag_spec bag MhIsEmpty (MhBool b) bag
| bs_clear bag : bag_spec bag MhClear MhUnit [].
Inductive bag_run {T} : list T -> list (mh_op T) -> list (mh_out T) -> list T -> Prop :=
| br_nil bag : bag_run bag [] [] bag
| br_cons bag bag1 bag2 o out ops outs : bag_spec bag o out bag1 -> bag_run bag1 ops outs bag2 -> bag_run bag (o :: ops) (out :: outs) bag2.

(** The shape of the array: no element exceeds the one above it. *)
Definition heap_order {A} (le : A -> A -> Prop) (l : list A) : Prop :=
  forall i x y, 0 < i -> l !! i = Some x -> l !! ((i - 1) / 2) = Some y -> le x y.
