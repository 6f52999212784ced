(** Multisets, inversions, increasing subsequences. *)
From Coq Require Import Sorting.Sorted.
From Verif Require Import Prelude TallyModel.

(** Calls on a bag of numbers below n and their answers.  The k-th smallest (from 0) is the k-th entry of the bag in ascending order;
    n if there is none. *)
Inductive tally_spec (n : nat) : list nat -> list tally_op -> list tally_out -> Prop :=
| ts_nil bag : tally_spec n bag [] []
| ts_insert bag x ops outs : x < n -> tally_spec n (x :: bag) ops outs -> tally_spec n bag (TInsert x :: ops) (TUnit :: outs)
| ts_remove bag bag' x ops outs : bag ≡ₚ x :: bag' -> tally_spec n bag' ops outs -> tally_spec n bag (TRemove x :: ops) (TUnit :: outs)
| ts_rank bag x ops outs : x <= n -> tally_spec n bag ops outs ->
    tally_spec n bag (TRank x :: ops) (TCount (Z.of_nat (length (filter (fun y => y < x) bag))) :: outs)
| ts_kth bag sorted k ops outs : sorted ≡ₚ bag -> StronglySorted le sorted -> tally_spec n bag ops outs ->
    tally_spec n bag (TKth k :: ops) (TIndex (default n (sorted !! k)) :: outs).

(** Legal histories: insert below n, remove only what is there, rank at most n. *)
Inductive tally_legal (n : nat) : list nat -> list tally_op -> Prop :=
| tl_nil bag : tally_legal n bag []
| tl_insert bag x ops : x < n -> tally_legal n (x :: bag) ops -> tally_legal n bag (TInsert x :: ops)
| tl_remove bag bag' x ops : bag ≡ₚ x :: bag' -> tally_legal n bag' ops -> tally_legal n bag (TRemove x :: ops)
| tl_rank bag x ops : x <= n -> tally_legal n bag ops -> tally_legal n bag (TRank x :: ops)
| tl_kth bag k ops : tally_legal n bag ops -> tally_legal n bag (TKth k :: ops).

(** Number of pairs i < j with a[i] > a[j]. *)
Fixpoint inversions (a : list nat) : nat :=
  match a with [] => 0 | x :: a => length (filter (fun y => y < x) a) + inversions a end.

(** L is the length of a longest strictly increasing subsequence. *)
Definition longest_increasing (a : list nat) (L : nat) : Prop :=
  (exists l, l `sublist_of` a /\ StronglySorted lt l /\ length l = L) /\
  forall l, l `sublist_of` a -> StronglySorted lt l -> length l <= L.
