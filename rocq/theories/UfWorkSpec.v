(** Calls of `find` made by the union-find structure. *)
From Verif Require Import Prelude UnionFindModel.

(** The vertices from i up to the representative r, each the parent of the one before. *)
Fixpoint climbs (fa : list nat) (i : nat) (path : list nat) (r : nat) : Prop :=
  match path with
  | [] => False
  | v :: path => v = i /\ match path with
      | [] => i = r /\ fa !! r = Some r
      | p :: _ => fa !! i = Some p /\ p <> i /\ climbs fa p path r
      end
  end.

(** What every call may cost on average, with n vertices *)
Definition uf_allowance (n : nat) (o : uf_op) : nat :=
  match o with
  | UfFind _ | UfSize _ => Nat.log2 n + 2
  | UfSame _ _ => 2 * Nat.log2 n + 4
  | UfJoin _ _ => 4 * Nat.log2 n + 4
  | UfGroups => 3 * n
  end.

(** 0 joined to 1, 1 to 2, ...: k joins, each of two representatives *)
Definition chain_joins (k : nat) : list uf_op := map (fun i => UfJoin i (S i)) (seq 0 k).
