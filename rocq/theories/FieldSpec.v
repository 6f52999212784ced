(** Weighted paths. *)
From Verif Require Import Prelude.

(** The sum of the weights of the steps of a walk. *)
Fixpoint wlen (c : nat -> nat -> nat) (l : list nat) : nat :=
  match l with
  | u :: t => match t with v :: _ => c u v + wlen c t | [] => 0 end
  | [] => 0
  end.
