(** What is left of a MinHeap after a call that unwound. *)
From Verif Require Import Prelude HeapModel BinHeapSpec Unwind.

(** A comparison that answers or unwinds. *)
Definition calm {W A} (cmpU : A -> A -> uw W comparison) : Prop := forall a b w, exists w' o, cmpU a b w = Ok (w', o).
(** Its answers, when it gives one, are those of cmp. *)
Definition follows {W A} (cmp : A -> A -> comparison) (cmpU : A -> A -> uw W comparison) : Prop :=
  forall a b w w' c, cmpU a b w = Ok (w', Some c) -> c = cmp a b.

(** One call on a bag, None for a call that unwound: the elements are as if it had returned, and the one popped is lost. *)
Inductive bag_after {T} : list T -> mh_op T -> option (mh_out T) -> list T -> Prop :=
| ba_ok bag o out bag' : bag_spec bag o out bag' -> bag_after bag o (Some out) bag'
| ba_push bag bag' x : bag' ≡ₚ x :: bag -> bag_after bag (MhPush x) None bag'
| ba_pop bag bag' x : bag ≡ₚ x :: bag' -> bag_after bag MhPop None bag'
| ba_append bag bag' xs : bag' ≡ₚ bag ++ xs -> bag_after bag (MhAppend xs) None bag'.
Inductive bag_after_run {T} : list T -> list (mh_op T) -> list (option (mh_out T)) -> list T -> Prop :=
| bar_nil bag : bag_after_run bag [] [] bag
| bar_cons bag bag1 bag2 o out ops outs : bag_after bag o out bag1 -> bag_after_run bag1 ops outs bag2 -> bag_after_run bag (o :: ops) (out :: outs) bag2.

(** The order of the array holds except at position p: between positions other than p, and from the positions below p to the one above. *)
Definition heap_but {A} (le : A -> A -> Prop) (p : nat) (l : list A) : Prop :=
  forall i x y, 0 < i -> i <> p -> l !! i = Some x ->
    ((i - 1) / 2 <> p -> l !! ((i - 1) / 2) = Some y -> le x y) /\
    ((i - 1) / 2 = p -> 0 < p -> l !! ((p - 1) / 2) = Some y -> le x y).
