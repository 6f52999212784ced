(** What a MinHeap user relies on: a bag of elements of an ordered type. *)
From Verif Require Import Prelude HeapModel.

(** x is a least element of the bag *)
Definition least {T} (le : T -> T -> Prop) (bag : list T) (x : T) : Prop :=
  x ∈ bag /\ forall y, y ∈ bag -> le x y.

(** One call on a bag (a list up to permutation): allowed answers and resulting bags. *)
Inductive mh_spec {T} (le : T -> T -> Prop) : list T -> mh_op T -> mh_out T -> list T -> Prop :=
| ms_push bag bag' x : bag' ≡ₚ x :: bag -> mh_spec le bag (MhPush x) MhUnit bag'
| ms_pop_none : mh_spec le [] MhPop (MhOpt None) []
| ms_pop_some bag bag' x : least le bag x -> bag ≡ₚ x :: bag' -> mh_spec le bag MhPop (MhOpt (Some x)) bag'
| ms_peek_none : mh_spec le [] MhPeek (MhOpt None) []
| ms_peek_some bag x : least le bag x -> mh_spec le bag MhPeek (MhOpt (Some x)) bag
| ms_len bag : mh_spec le bag MhLen (MhNum (length bag)) bag
| ms_append bag bag' xs : bag' ≡ₚ bag ++ xs -> mh_spec le bag (MhAppend xs) (MhNum 0) bag'
| ms_is_empty bag b : (b = true <-> bag = []) -> mh_spec le bag MhIsEmpty (MhBool b) bag
| ms_clear bag : mh_spec le bag MhClear MhUnit [].

(** A whole history. *)
Inductive mh_spec_run {T} (le : T -> T -> Prop) : list T -> list (mh_op T) -> list (mh_out T) -> list T -> Prop :=
| msr_nil bag : mh_spec_run le bag [] [] bag
| msr_cons bag bag1 bag2 o out ops outs :
    mh_spec le bag o out bag1 -> mh_spec_run le bag1 ops outs bag2 ->
    mh_spec_run le bag (o :: ops) (out :: outs) bag2.
