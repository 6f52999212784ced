(** A client assigning the public field level of BinaryLifting (binary_lifting.rs:4).  Not code of /repo. *)
From Verif Require Import Prelude LiftModel.

(** b.level = k *)
Definition set_level (b : bl) (k : nat) : bl := BL k (bl_pa b) (bl_dep b) (bl_tin b) (bl_tout b).
