(** Client code over BinaryLifting: the auxiliary tree of a set of vertices (sort by tin, add the lca of neighbours, sort again).
    Not code of /repo. *)
From Verif Require Import Prelude LiftModel.

(** vs.sort_by_key(|&v| b.tin[v]), as an insertion sort *)
Fixpoint tin_insert (b : bl) (x : nat) (l : list nat) : res (list nat) :=
  match l with
  | [] => Ok [x]
  | y :: l =>
      tx ← vget (bl_tin b) x;
      ty ← vget (bl_tin b) y;
      if tx <=? ty then Ok (x :: y :: l) else l ← tin_insert b x l; Ok (y :: l)
  end.
Definition tin_sort (b : bl) (vs : list nat) : res (list nat) := rfor vs (tin_insert b) [].
(** lca of every two neighbours in the list *)
Definition neighbour_lcas (b : bl) (vs : list nat) : res (list nat) :=
  rfor (range 1 (length vs)) (fun i acc => x ← vget vs (i - 1); y ← vget vs i; l ← bl_lca b x y; Ok (acc ++ [l])) [].
(** vs.dedup() *)
Fixpoint dedup (l : list nat) : list nat :=
  match l with
  | [] => []
  | x :: l => match dedup l with [] => [x] | y :: l' => if x =? y then y :: l' else x :: y :: l' end
  end.
(** The vertices of the auxiliary tree, in the order of tin, and the parents of all but the first. *)
Definition virt_nodes (b : bl) (vs : list nat) : res (list nat) :=
  vs ← tin_sort b vs;
  ls ← neighbour_lcas b vs;
  l ← tin_sort b (vs ++ ls);
  Ok (dedup l).
Definition virt_tree (b : bl) (vs : list nat) : res (list nat * list nat) :=
  l ← virt_nodes b vs;
  ps ← neighbour_lcas b l;
  Ok (l, ps).
