(** A client: dijkstra(&g, root) from the root of a tree, stored as the field dep of a BinaryLifting. *)
From Verif Require Import Prelude LiftModel FieldModel.

(** b.dep = dis.into_iter().map(|d| d.unwrap()).collect() *)
Definition dep_from (b : bl) (dis : list (option Z)) : res bl :=
  match mapM (fun d => Z.to_nat <$> d) dis with Some w => Ok (with_dep b w) | None => Panic end.
