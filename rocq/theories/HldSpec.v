(** What a user of HLD relies on: one value per vertex of a tree. *)
From Verif Require Import Prelude ArraySpec LazySpec TreeSpec.

Inductive hld_op (S F : Type) :=
| HApplyPath (u v : nat) (f : F)
| HPathProd (u v : nat)
| HApplySubtree (u : nat) (f : F)
| HSubtreeProd (u : nat)
| HGet (u : nat)
| HSet (u : nat) (x : S)
| HData (o : lz_op S F).   (* a call on the public field data *)
Arguments HApplyPath {S F}. Arguments HPathProd {S F}. Arguments HApplySubtree {S F}.
Arguments HSubtreeProd {S F}. Arguments HGet {S F}. Arguments HSet {S F}. Arguments HData {S F}.

Inductive hld_out (S : Type) := HUnit | HVal (x : S) | HDataOut (y : lz_out S).
Arguments HUnit {S}. Arguments HVal {S}. Arguments HDataOut {S}.

(** l is the path from u to v (both ends included). *)
Definition is_path (g : list (list nat)) (u v : nat) (l : list nat) : Prop := walk g u v l /\ NoDup l.

(** A visiting order: every vertex once, and the subtree of every vertex is a block that starts with this vertex. *)
Definition visiting_order (g : list (list nat)) (root : nat) (ord : list nat) : Prop :=
  ord ≡ₚ seq 0 (length g) /\
  forall k u, ord !! k = Some u -> exists m, forall j w, ord !! j = Some w -> (ancestor g root u w <-> k <= j < k + m).

(** b goes down the tree from parent to child and its vertices are consecutive in ord. *)
Definition descending (g : list (list nat)) (root : nat) (ord : list nat) (b : list nat) : Prop :=
  b <> [] /\ (exists k, forall i x, b !! i = Some x -> ord !! (k + i) = Some x) /\
  forall i x y, b !! i = Some x -> b !! (S i) = Some y -> edge g x y /\ ancestor g root x y.
(** The order in which path_prod multiplies along the path l: the path is cut into at most 2 log2 n + 1 pieces, every piece is taken
    downwards, and the pieces are taken by decreasing depth of their top vertex (so the piece with the lowest common ancestor is last). *)
Definition by_pieces (g : list (list nat)) (root : nat) (ord : list nat) (l' l : list nat) : Prop :=
  l' ≡ₚ l /\ exists bs, l' = concat bs /\ length bs <= 2 * Nat.log2 (length g) + 1 /\ Forall (descending g root ord) bs /\
  forall i j b c x y dx dy, i < j -> bs !! i = Some b -> bs !! j = Some c -> b !! 0 = Some x -> c !! 0 = Some y ->
    is_dist g root x dx -> is_dist g root y dy -> dy <= dx.

Section Spec.
  Context {S F : Type} (e : S) (op : S -> S -> S) (mapping : F -> S -> S).
  Context (g : list (list nat)) (root : nat) (ord : list nat).
  (** order l' l: path_prod may multiply in the order l' along the path l. *)
  Context (order : list nat -> list nat -> Prop).

  (** The values w of the vertices of l, in the order of l. *)
  Definition vals (w : list S) (l : list nat) : list S := map (fun x => default e (w !! x)) l.

  (** w' is w with the values of the vertices in P mapped by f. *)
  Definition mapped (P : nat -> Prop) (f : F) (w w' : list S) : Prop :=
    length w' = length w /\
    forall x y, w !! x = Some y -> (P x -> w' !! x = Some (mapping f y)) /\ (~ P x -> w' !! x = Some y).

  (** Allowed outcomes of one call when the vertices hold the values w.  path_prod multiplies the values of the path
      in an order allowed by [order]; subtree_prod multiplies the values
      of the subtree in the visiting order; the field data is the array of the values in the visiting order. *)
  Definition hld_allowed (w : list S) (o : hld_op S F) (out : res (list S * hld_out S)) : Prop :=
    match o with
    | HApplyPath u v f =>
        if (u <? length g) && (v <? length g) then
          exists l w', is_path g u v l /\ mapped (fun x => x ∈ l) f w w' /\ out = Ok (w', HUnit)
        else out = Panic
    | HPathProd u v =>
        if (u <? length g) && (v <? length g) then
          exists l l', is_path g u v l /\ order l' l /\ out = Ok (w, HVal (mprod e op (vals w l')))
        else out = Panic
    | HApplySubtree u f =>
        if u <? length g then exists w', mapped (ancestor g root u) f w w' /\ out = Ok (w', HUnit) else out = Panic
    | HSubtreeProd u =>
        if u <? length g then
          exists l, sublist l ord /\ (forall x, x ∈ l <-> x < length g /\ ancestor g root u x) /\
            out = Ok (w, HVal (mprod e op (vals w l)))
        else out = Panic
    | HGet u => match w !! u with Some x => out = Ok (w, HVal x) | None => out = Panic end
    | HSet u x => if u <? length g then out = Ok (<[u := x]> w, HUnit) else out = Panic
    | HData o =>
        match out with
        | Ok (w', HDataOut y) => length w' = length w /\ lz_allowed e op mapping (vals w ord) o (Ok (vals w' ord, y))
        | Panic => lz_allowed e op mapping (vals w ord) o Panic
        | _ => False
        end
    end.

  (** Allowed outcomes of a whole history, stopping at the first panic. *)
  Inductive hld_allowed_run : list S -> list (hld_op S F) -> res (list (hld_out S)) -> Prop :=
  | har_nil w : hld_allowed_run w [] (Ok [])
  | har_panic w o ops : hld_allowed w o Panic -> hld_allowed_run w (o :: ops) Panic
  | har_ok w w' o out ops outs :
      hld_allowed w o (Ok (w', out)) -> hld_allowed_run w' ops (Ok outs) -> hld_allowed_run w (o :: ops) (Ok (out :: outs))
  | har_later w w' o out ops :
      hld_allowed w o (Ok (w', out)) -> hld_allowed_run w' ops Panic -> hld_allowed_run w (o :: ops) Panic.
End Spec.
