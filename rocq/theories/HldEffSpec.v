(** Calls on an HLD whose searches on the field data take a predicate with side effects, and how often the caller's functions run. *)
From Verif Require Import Prelude Eff LazySpec EffSpec HldSpec.

Inductive hle_op (W S F : Type) :=
| HeApplyPath (u v : nat) (f : F)
| HePathProd (u v : nat)
| HeApplySubtree (u : nat) (f : F)
| HeSubtreeProd (u : nat)
| HeGet (u : nat)
| HeSet (u : nat) (x : S)
| HeData (o : ef_op W S F).
Arguments HeApplyPath {W S F}. Arguments HePathProd {W S F}. Arguments HeApplySubtree {W S F}.
Arguments HeSubtreeProd {W S F}. Arguments HeGet {W S F}. Arguments HeSet {W S F}. Arguments HeData {W S F}.

(** The call without what a predicate does *)
Definition hplain {W S F} (o : hle_op W S F) : hld_op S F :=
  match o with
  | HeApplyPath u v f => HApplyPath u v f
  | HePathProd u v => HPathProd u v
  | HeApplySubtree u f => HApplySubtree u f
  | HeSubtreeProd u => HSubtreeProd u
  | HeGet u => HGet u
  | HeSet u x => HSet u x
  | HeData o => HData (plain o)
  end.
Definition hpred_ok {W S F} (R : relation W) (o : hle_op W S F) : Prop := match o with HeData o => pred_ok R o | _ => True end.

(** Calls of the operation, the mapping, the composition and the predicate by one call on an HLD of n vertices: a path is cut into at
    most 2 log2 n + 1 ranges. *)
Definition hld_calls {S F} (n : nat) (o : hld_op S F) : nat :=
  let L := Nat.log2_up n in
  match o with
  | HApplyPath _ _ _ => (2 * Nat.log2 n + 1) * (14 * L + 4)
  | HPathProd _ _ => (2 * Nat.log2 n + 1) * (10 * L + 4)
  | HApplySubtree _ _ => 14 * L + 4
  | HSubtreeProd _ => 10 * L + 3
  | HGet _ => 4 * L
  | HSet _ _ => 5 * L
  | HData o => lazy_calls n o
  end.
