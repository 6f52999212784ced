(** How many comparisons the heap may make. *)
From Verif Require Import Prelude HeapModel.

(** The number of elements put in by a history of calls. *)
Definition inserted {T} (ops : list (mh_op T)) : nat := sum_list_with (fun o => match o with MhPush _ => 1 | MhAppend xs => length xs | _ => 0 end) ops.
(** Comparisons of one call when at most n elements are ever put in; an append first pushes its elements into a heap of their own. *)
Definition mh_cost {T} (n : nat) (o : mh_op T) : nat :=
  match o with
  | MhPush _ => Nat.log2 n
  | MhPop => 2 * Nat.log2 n
  | MhAppend xs => length xs * Nat.log2 n + Nat.max (2 * n) (length xs * Nat.log2 n)
  | _ => 0
  end.
