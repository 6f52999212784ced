(** Which contents of the field pos of HLD keep the calls on paths and vertices right. *)
From Verif Require Import Prelude TreeSpec HldSpec.

(** p gives the vertices different places below m, and next places to neighbours that have next places in pos. *)
Definition layout (g : list (list nat)) (pos p : list nat) (m : nat) : Prop :=
  length p = length g /\ NoDup p /\ (forall v i, p !! v = Some i -> i < m) /\
  forall u v i j k, edge g u v -> pos !! u = Some k -> pos !! v = Some (S k) -> p !! u = Some i -> p !! v = Some j -> j = S i.
(** Calls on paths and vertices. *)
Definition path_call {S F} (o : hld_op S F) : Prop :=
  match o with HApplyPath _ _ _ | HPathProd _ _ | HGet _ | HSet _ _ => True | _ => False end.
