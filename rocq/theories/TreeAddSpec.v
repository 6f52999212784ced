(** Additions to all vertices of a path and of a subtree. *)
From Verif Require Import Prelude ArraySpec.

Inductive ta_op (T : Type) := TaPath (u v : nat) (x : T) | TaSub (v : nat) (x : T) | TaGet (v : nat).
Arguments TaPath {T}. Arguments TaSub {T}. Arguments TaGet {T}.

(** Adds x to the value of every vertex that satisfies P. *)
Definition add_where {T} (add : T -> T -> T) (P : nat -> Prop) `{forall z, Decision (P z)} (x : T) (w : list T) : list T :=
  imap (fun z y => if decide (P z) then add y x else y) w.
(** w holds the values by vertex; path u v lists the vertices from u to v; the subtree of v holds the vertices whose path to the root meets v. *)
Definition ta_spec {T} (add : T -> T -> T) (root : nat) (path : nat -> nat -> list nat) (w : list T) (o : ta_op T) : res (list T * option T) :=
  match o with
  | TaPath u v x => if (u <? length w) && (v <? length w) then Ok (add_where add (fun z => z ∈ path u v) x w, None) else Panic
  | TaSub v x => if v <? length w then Ok (add_where add (fun z => v ∈ path root z) x w, None) else Panic
  | TaGet v => match w !! v with Some y => Ok (w, Some y) | None => Panic end
  end.
