(** UnionFind after caught panics. *)
From Verif Require Import Prelude Unwind UnionFindModel UnionFindSpec.

(** Every join of two vertices names the representatives of their sets, along a history in which a refused call is caught and
    leaves the labelling alone. *)
Fixpoint joins_of_reps_caught (lab : list nat) (ops : list uf_op) : Prop :=
  match ops with
  | [] => True
  | o :: ops =>
      join_of_reps lab o /\
      match uf_spec_step lab o with Ok (lab', _) => joins_of_reps_caught lab' ops | _ => joins_of_reps_caught lab ops end
  end.

(** Two results of a call that may differ in the stored sizes: those of size(), and a join may unwind instead of returning
    true. *)
Definition same_but_sizes (o : uf_op) (out rout : option uf_out) : Prop :=
  match o with
  | UfSize _ => is_Some out <-> is_Some rout
  | UfJoin _ _ => out = rout \/ out = None /\ rout = Some (UfBool true)
  | _ => out = rout
  end.
