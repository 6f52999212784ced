(** Values on the vertices of a tree, summed along its paths. *)
From Verif Require Import Prelude ArraySpec HldSpec.

Inductive ps_op (T : Type) := PsAdd (v : nat) (x : T) | PsGet (v : nat) | PsRoot (u : nat) | PsPath (u v : nat).
Arguments PsAdd {T}. Arguments PsGet {T}. Arguments PsRoot {T}. Arguments PsPath {T}.

(** w holds the values by vertex; path u v lists the vertices from u to v. *)
Definition ps_spec {T} (zero : T) (add : T -> T -> T) (root : nat) (path : nat -> nat -> list nat) (w : list T) (o : ps_op T) : res (list T * option T) :=
  match o with
  | PsAdd v x => match w !! v with Some y => Ok (<[v := add y x]> w, None) | None => Panic end
  | PsGet v => match w !! v with Some y => Ok (w, Some y) | None => Panic end
  | PsRoot u => if u <? length w then Ok (w, Some (mprod zero add (vals zero w (path root u)))) else Panic
  | PsPath u v => if (u <? length w) && (v <? length w) then Ok (w, Some (mprod zero add (vals zero w (path u v)))) else Panic
  end.
