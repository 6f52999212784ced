(** What a LazySegtree user relies on: a plain array whose entries can be mapped over ranges. *)
From Verif Require Import Prelude ArraySpec.

(** src/traits/monoid.rs leaves these laws of a monoid with maps to the implementor.
    (mapping(f, e) = e is not needed.) *)
Record map_laws {S F} (op : S -> S -> S) (idm : F) (mapping : F -> S -> S) (comp : F -> F -> F) : Prop := {
  mpl_id : forall x, mapping idm x = x;
  mpl_comp : forall f g x, mapping (comp f g) x = mapping f (mapping g x);
  mpl_op : forall f x y, mapping f (op x y) = op (mapping f x) (mapping f y) }.

Inductive lz_op (S F : Type) :=
| LzSet (p : nat) (x : S)
| LzGet (p : nat)
| LzProd (l r : nat)
| LzAllProd
| LzApply (p : nat) (f : F)
| LzApplyRange (l r : nat) (f : F)
| LzMaxRight (l : nat) (g : S -> bool)
| LzMinLeft (r : nat) (g : S -> bool).
Arguments LzSet {S F}. Arguments LzGet {S F}. Arguments LzProd {S F}. Arguments LzAllProd {S F}.
Arguments LzApply {S F}. Arguments LzApplyRange {S F}. Arguments LzMaxRight {S F}. Arguments LzMinLeft {S F}.

Inductive lz_out (S : Type) := LzUnit | LzVal (x : S) | LzIdx (i : nat).
Arguments LzUnit {S}. Arguments LzVal {S}. Arguments LzIdx {S}.

Section Spec.
  Context {S F : Type} (e : S) (op : S -> S -> S) (mapping : F -> S -> S).

  (** The plain array [a]; calls other than the two searches. *)
  Definition lz_spec_step (a : list S) (o : lz_op S F) : res (list S * lz_out S) :=
    match o with
    | LzSet p x => if p <? length a then Ok (<[p := x]> a, LzUnit) else Panic
    | LzGet p => match a !! p with Some x => Ok (a, LzVal x) | None => Panic end
    | LzProd l r => if (l <=? r) && (r <=? length a) then Ok (a, LzVal (mprod e op (slice a l r))) else Panic
    | LzAllProd => Ok (a, LzVal (mprod e op a))
    | LzApply p f => match a !! p with Some x => Ok (<[p := mapping f x]> a, LzUnit) | None => Panic end
    | LzApplyRange l r f =>
        if (l <=? r) && (r <=? length a) then Ok (map_range (mapping f) l r a, LzUnit) else Panic
    | LzMaxRight _ _ | LzMinLeft _ _ => Panic
    end.

  Definition is_search (o : lz_op S F) : bool :=
    match o with LzMaxRight _ _ | LzMinLeft _ _ => true | _ => false end.

  (** All calls: which outcomes are allowed on the plain array [a].  The searches leave the array alone. *)
  Definition lz_allowed (a : list S) (o : lz_op S F) (out : res (list S * lz_out S)) : Prop :=
    match o with
    | LzMaxRight l g =>
        if (l <=? length a) && g e then
          exists r, out = Ok (a, LzIdx r) /\ max_right_post e op a l g r /\
            (mono_from e op a l g -> forall j, l <= j <= length a ->
               g (mprod e op (slice a l j)) = true -> j <= r)
        else out = Panic
    | LzMinLeft r g =>
        if (r <=? length a) && g e then
          exists l, out = Ok (a, LzIdx l) /\ min_left_post e op a r g l /\
            (mono_to e op a r g -> forall i, i <= r ->
               g (mprod e op (slice a i r)) = true -> l <= i)
        else out = Panic
    | _ => out = lz_spec_step a o
    end.

  (** Allowed outcomes of a whole history, stopping at the first panic. *)
  Inductive lz_allowed_run : list S -> list (lz_op S F) -> res (list (lz_out S)) -> Prop :=
  | lar_nil a : lz_allowed_run a [] (Ok [])
  | lar_panic a o ops : lz_allowed a o Panic -> lz_allowed_run a (o :: ops) Panic
  | lar_ok a a' o out ops outs :
      lz_allowed a o (Ok (a', out)) -> lz_allowed_run a' ops (Ok outs) ->
      lz_allowed_run a (o :: ops) (Ok (out :: outs))
  | lar_later a a' o out ops :
      lz_allowed a o (Ok (a', out)) -> lz_allowed_run a' ops Panic ->
      lz_allowed_run a (o :: ops) Panic.
End Spec.
