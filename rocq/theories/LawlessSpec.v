(** What the data structures compute when the functions supplied by the user satisfy no laws: every answer is put together from exactly the
    right elements, but how is left open. *)
From Verif Require Import Prelude ArraySpec LazySpec FreeSpec TreeSpec HldSpec.

(** f is a composition of the maps of l in this order (the first is applied last), bracketed in some way, possibly with identities. *)
Inductive comps {F} (idm : F) (comp : F -> F -> F) : list F -> F -> Prop :=
| co_id : comps idm comp [] idm
| co_one f : comps idm comp [f] f
| co_comp l1 l2 f g : comps idm comp l1 f -> comps idm comp l2 g -> comps idm comp (l1 ++ l2) (comp f g).

(** An entry of an array: the value written last and the maps applied since then, the latest first.  x is a product of the entries of l in
    this order, where a composition of maps is applied to an element or to a whole product whose elements all have to be mapped so.  A product
    of nothing is only mapped by identities. *)
Inductive results {S F} (e : S) (op : S -> S -> S) (idm : F) (mapping : F -> S -> S) (comp : F -> F -> F) : list (S * list F) -> S -> Prop :=
| rs_e : results e op idm mapping comp [] e
| rs_one x : results e op idm mapping comp [(x, [])] x
| rs_op l1 l2 x y : results e op idm mapping comp l1 x -> results e op idm mapping comp l2 y -> results e op idm mapping comp (l1 ++ l2) (op x y)
| rs_map fs f l x : comps idm comp fs f -> results e op idm mapping comp l x -> (l = [] -> fs = []) ->
    results e op idm mapping comp (map (fun q => (q.1, fs ++ q.2)) l) (mapping f x).

(** The calls of the lazy segment tree on the array a of such entries. *)
Definition lz_any {S F} (e : S) (op : S -> S -> S) (idm : F) (mapping : F -> S -> S) (comp : F -> F -> F)
  (a : list (S * list F)) (o : lz_op S F) (out : res (list (S * list F) * lz_out S)) : Prop :=
  let prods l x := results e op idm mapping comp l x in
  match o with
  | LzSet p x => out = if p <? length a then Ok (<[p := (x, [])]> a, LzUnit) else Panic
  | LzGet p => match a !! p with Some q => exists x, out = Ok (a, LzVal x) /\ prods [q] x | None => out = Panic end
  | LzProd l r => if (l <=? r) && (r <=? length a) then exists x, out = Ok (a, LzVal x) /\ prods (slice a l r) x else out = Panic
  | LzAllProd => exists x, out = Ok (a, LzVal x) /\ prods a x
  | LzApply p f => out = match a !! p with Some q => Ok (<[p := (q.1, f :: q.2)]> a, LzUnit) | None => Panic end
  | LzApplyRange l r f =>
      out = if (l <=? r) && (r <=? length a) then Ok (map_range (fun q => (q.1, f :: q.2)) l r a, LzUnit) else Panic
  | LzMaxRight l g =>
      if (l <=? length a) && g e then
        exists r, out = Ok (a, LzIdx r) /\ l <= r /\ (r <= length a \/ r + 2 <= 2 * length a) /\
          (exists x, prods (slice a l r) x /\ g x = true) /\ (r <> length a -> exists y, prods (slice a l (r + 1)) y /\ g y = false)
      else out = Panic
  | LzMinLeft r g =>
      if (r <=? length a) && g e then
        exists l, out = Ok (a, LzIdx l) /\ l <= r /\
          (exists x, prods (slice a l r) x /\ g x = true) /\ (0 < l -> exists y, prods (slice a (l - 1) r) y /\ g y = false)
      else out = Panic
  end.

(** The calls of HLD when the vertices hold the entries w; as [hld_allowed], with results instead of products. *)
Definition entries {S F} (w : list (S * list F)) (l : list nat) : list (S * list F) := omap (fun x => w !! x) l.
Definition hld_any {S F} (e : S) (op : S -> S -> S) (idm : F) (mapping : F -> S -> S) (comp : F -> F -> F)
  (g : list (list nat)) (root : nat) (ord : list nat) (order : list nat -> list nat -> Prop)
  (w : list (S * list F)) (o : hld_op S F) (out : res (list (S * list F) * hld_out S)) : Prop :=
  let prods l x := results e op idm mapping comp l x in
  let mapped P f w' := mapped (fun f q => (q.1, f :: q.2)) P f w w' in
  match o with
  | HApplyPath u v f =>
      if (u <? length g) && (v <? length g) then
        exists l w', is_path g u v l /\ mapped (fun x => x ∈ l) f w' /\ out = Ok (w', HUnit)
      else out = Panic
  | HPathProd u v =>
      if (u <? length g) && (v <? length g) then
        exists l l' x, is_path g u v l /\ order l' l /\ prods (entries w l') x /\ out = Ok (w, HVal x)
      else out = Panic
  | HApplySubtree u f =>
      if u <? length g then exists w', mapped (ancestor g root u) f w' /\ out = Ok (w', HUnit) else out = Panic
  | HSubtreeProd u =>
      if u <? length g then
        exists l x, sublist l ord /\ (forall y, y ∈ l <-> y < length g /\ ancestor g root u y) /\ prods (entries w l) x /\ out = Ok (w, HVal x)
      else out = Panic
  | HGet u => match w !! u with Some q => exists x, prods [q] x /\ out = Ok (w, HVal x) | None => out = Panic end
  | HSet u x => if u <? length g then out = Ok (<[u := (x, [])]> w, HUnit) else out = Panic
  | HData o =>
      match out with
      | Ok (w', HDataOut y) => length w' = length w /\ lz_any e op idm mapping comp (entries w ord) o (Ok (entries w' ord, y))
      | Panic => lz_any e op idm mapping comp (entries w ord) o Panic
      | _ => False
      end
  end.
