(** A plain array under range additions. *)
From Verif Require Import Prelude ArraySpec RangeAddModel.

(** Entry i of the array, the position being counted from 0. *)
Definition added_to {T} (add : T -> T -> T) (l r : nat) (x : T) (a : list T) : list T := imap (fun i y => if (l <=? i) && (i <? r) then add y x else y) a.
Definition ra_spec {T} (zero : T) (add : T -> T -> T) (a : list T) (o : ra_op T) : res (list T * option T) :=
  match o with
  | RaAdd l r x => Ok (added_to add l r x a, None)
  | RaSum l r => Ok (a, Some (mprod zero add (slice a l r)))
  | RaGet k => match a !! k with Some x => Ok (a, Some x) | None => Panic end
  end.
(** The calls in range. *)
Definition ra_legal {T} (n : nat) (o : ra_op T) : Prop := match o with RaAdd l r _ => l <= r | RaSum l r => l <= r <= n | RaGet _ => True end.
