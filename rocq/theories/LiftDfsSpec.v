(** Calls of the public BinaryLifting::dfs (binary_lifting.rs:27) by its user. *)
From Verif Require Import Prelude LiftModel.

(** The structures a user can hold for graphs with n vertices: from, then any calls of dfs, with any graphs, starting vertices,
    parents and timers, that return. *)
Inductive bl_state (n : nat) : bl -> Prop :=
| bs_from g root b : length g = n -> bl_from g root = Ok b -> bl_state n b
| bs_dfs b fuel g u p t b' t' : bl_state n b -> bl_dfs fuel g u p (b, t) = Ok (b', t') -> bl_state n b'.

(** from for the tree of r0, then dfs for the trees of the other roots, the timer running on from t0. *)
Definition forest (g : list (list nat)) (r0 : nat) (rs : list nat) (t0 : nat) : res (bl * nat) :=
  b ← bl_from g r0;
  rfor rs (fun r st => bl_dfs (S (length g)) g r r st) (b, t0).
