(** The order in which a depth-first search visits a graph; no reference to the structures. *)
From Verif Require Import Prelude ArraySpec TreeSpec HldSpec.

(** preorder g u p l: the search that enters u from p visits the vertices of l in this order, each with the number of visits from its
    own up to its return; the neighbours are searched in the order of their list, except p.
    preorders g u vs l: the same for the searches of all of vs, entered from u. *)
Inductive preorder (g : list (list nat)) : nat -> nat -> list (nat * nat) -> Prop :=
| pre_node u p es l : g !! u = Some es -> preorders g u (filter (fun v => v <> p) es) l -> preorder g u p ((u, S (length l)) :: l)
with preorders (g : list (list nat)) : nat -> list nat -> list (nat * nat) -> Prop :=
| pre_nil u : preorders g u [] []
| pre_cons u v vs l1 l2 : preorder g v u l1 -> preorders g u vs l2 -> preorders g u (v :: vs) (l1 ++ l2).

(** Values on the vertices of a rooted tree: set one, get one, multiply those of a subtree. *)
Inductive sub_op (S : Type) := SubSet (v : nat) (x : S) | SubGet (v : nat) | SubProd (u : nat).
Arguments SubSet {S}. Arguments SubGet {S}. Arguments SubProd {S}.

(** w holds the values by vertex; sub u lists the vertices of the subtree of u. *)
Definition sub_spec_step {S} (e : S) (op : S -> S -> S) (sub : nat -> list nat) (w : list S) (o : sub_op S) : res (list S * option S) :=
  match o with
  | SubSet v x => if v <? length w then Ok (<[v := x]> w, None) else Panic
  | SubGet v => match w !! v with Some x => Ok (w, Some x) | None => Panic end
  | SubProd u => if u <? length w then Ok (w, Some (mprod e op (vals e w (sub u)))) else Panic
  end.
