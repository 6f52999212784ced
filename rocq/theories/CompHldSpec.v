(** What HLD does on a graph where only the vertices reached from the root form a tree: one value per reached vertex; a vertex
    that is not reached is another name of the root. *)
From Verif Require Import Prelude ArraySpec LazySpec TreeSpec CompSpec HldSpec.

(** x is stored in the cell of the root. *)
Definition rootlike (g : list (list nat)) (root x : nat) : Prop := x = root \/ ~ reached g root x.
(** x and y are stored in one cell. *)
Definition shares (g : list (list nat)) (root x y : nat) : Prop := x = y \/ rootlike g root x /\ rootlike g root y.

(** A visiting order of the reached vertices: every one once, subtrees are blocks that start with their top vertex. *)
Definition comp_order (g : list (list nat)) (root : nat) (ord : list nat) : Prop :=
  NoDup ord /\ (forall v, v ∈ ord <-> reached g root v) /\
  forall k u, ord !! k = Some u -> exists m, forall j w, ord !! j = Some w -> (ancestor g root u w <-> k <= j < k + m).

(** The values after with_init_value(w1): the root gets the value given for the last vertex stored in its cell. *)
Definition init_values {S} (g : list (list nat)) (root : nat) (w1 w : list S) : Prop :=
  length w = length w1 /\ (forall v, reached g root v -> v <> root -> w !! v = w1 !! v) /\
  exists k, k < length g /\ rootlike g root k /\ (forall v, v < length g -> rootlike g root v -> v <= k) /\
    forall v, v < length g -> rootlike g root v -> w !! v = w1 !! k.

(** u stands for the vertex v of the tree. *)
Definition stands (g : list (list nat)) (root u v : nat) : Prop := reached g root u /\ v = u \/ ~ reached g root u /\ v = root.
(** The calls described here: path calls between two reached vertices or two others, or any two if the root is vertex 0; the other
    calls on any vertex; not those on the field data. *)
Definition usable {S F} (g : list (list nat)) (root : nat) (o : hld_op S F) : Prop :=
  match o with
  | HApplyPath u v _ | HPathProd u v => u < length g /\ v < length g /\ (root = 0 \/ (reached g root u <-> reached g root v))
  | HApplySubtree u _ | HSubtreeProd u | HGet u | HSet u _ => u < length g
  | HData _ => False
  end.

(** Some vertex of the call is out of range. *)
Definition out_of_range {S F} (g : list (list nat)) (o : hld_op S F) : Prop :=
  match o with
  | HApplyPath u v _ | HPathProd u v => length g <= u \/ length g <= v
  | HApplySubtree u _ | HSubtreeProd u | HGet u | HSet u _ => length g <= u
  | HData _ => False
  end.

Section Spec.
  Context {S F : Type} (e : S) (op : S -> S -> S) (mapping : F -> S -> S).
  Context (g : list (list nat)) (root : nat) (ord : list nat) (order : list nat -> list nat -> Prop).

  (** One call turns the values w into w' and returns out. *)
  Definition comp_step (w : list S) (o : hld_op S F) (w' : list S) (out : hld_out S) : Prop :=
    match o with
    | HApplyPath u v f =>
        out = HUnit /\ exists u' v' l, stands g root u u' /\ stands g root v v' /\ is_path g u' v' l /\ mapped mapping (fun x => exists y, y ∈ l /\ shares g root x y) f w w'
    | HPathProd u v =>
        w' = w /\ exists u' v' l l', stands g root u u' /\ stands g root v v' /\ is_path g u' v' l /\ order l' l /\ out = HVal (mprod e op (vals e w l'))
    | HApplySubtree u f =>
        out = HUnit /\ mapped mapping (fun x => exists y, reached g root y /\ ancestor g root u y /\ shares g root x y) f w w'
    | HSubtreeProd u =>
        w' = w /\ exists l, sublist l ord /\ (forall x, x ∈ l <-> reached g root x /\ ancestor g root u x) /\ out = HVal (mprod e op (vals e w l))
    | HGet u => w' = w /\ exists x, w !! u = Some x /\ out = HVal x
    | HSet u x => out = HUnit /\ length w' = length w /\
        forall v, v < length w -> (shares g root v u -> w' !! v = Some x) /\ (~ shares g root v u -> w' !! v = w !! v)
    | HData _ => False
    end.
  Inductive comp_run : list S -> list (hld_op S F) -> list S -> list (hld_out S) -> Prop :=
  | cr_nil w : comp_run w [] w []
  | cr_cons w w1 w2 o out ops outs : comp_step w o w1 out -> comp_run w1 ops w2 outs -> comp_run w (o :: ops) w2 (out :: outs).
End Spec.
