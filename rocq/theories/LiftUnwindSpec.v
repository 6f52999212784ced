(** Histories of BinaryLifting::dfs with the panics caught. *)
From Verif Require Import Prelude LiftModel Unwind LiftUnwindModel.

(** Structures made by from on a graph with n vertices and any calls of dfs since, on any graphs and vertices, that returned or unwound. *)
Inductive bl_left (n : nat) : bl -> Prop :=
| bl_left_from g root b : length g = n -> bl_from g root = Ok b -> bl_left n b
| bl_left_dfs b fuel g u p t b' t' o : bl_left n b -> blu_dfs fuel g u p (b, t) = Ok ((b', t'), o) -> bl_left n b'.
