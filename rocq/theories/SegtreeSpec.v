(** What a Segtree user relies on: a plain array. *)
From Verif Require Import Prelude ArraySpec.

Inductive sg_op (S : Type) :=
| SgSet (p : nat) (x : S)
| SgGet (p : nat)
| SgProd (l r : nat)
| SgAllProd.
Arguments SgSet {S}. Arguments SgGet {S}. Arguments SgProd {S}. Arguments SgAllProd {S}.

Inductive sg_out (S : Type) :=
| SgUnit
| SgVal (x : S).
Arguments SgUnit {S}. Arguments SgVal {S}.

(** The plain array [a]. *)
Definition sg_spec_step {S} (e : S) (op : S -> S -> S) (a : list S) (o : sg_op S)
  : res (list S * sg_out S) :=
  match o with
  | SgSet p x => if p <? length a then Ok (<[p := x]> a, SgUnit) else Panic
  | SgGet p => match a !! p with Some x => Ok (a, SgVal x) | None => Panic end
  | SgProd l r =>
      if (l <=? r) && (r <=? length a) then Ok (a, SgVal (mprod e op (slice a l r))) else Panic
  | SgAllProd => Ok (a, SgVal (mprod e op a))
  end.
