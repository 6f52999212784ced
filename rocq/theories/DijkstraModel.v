(** Model of src/graph/shortest_path.rs over any heap meeting the contract of BinaryHeap (HeapModel.v).
    Vertices are nat, weights and distances are Z with checked usize arithmetic. *)
From Verif Require Import Prelude IntModel HeapModel.
Open Scope Z_scope.

Notation wgraph := (list (list (nat * Z))).

(** Ord on (usize, usize): lexicographic *)
Definition pair_le (a b : Z * nat) : Prop := a.1 < b.1 \/ a.1 = b.1 /\ (a.2 <= b.2)%nat.

Section Dijkstra.
  Context (B : binheap (reverse (Z * nat))).

  (** shortest_path.rs:11-16  the loop over the edges of u (`unwrap_unchecked` runs on Some only) *)
  Definition relax (d : Z) (e : nat * Z) (st : list (option Z) * bh B) : res (list (option Z) * bh B) :=
    let '(dis, q) := st in
    let '(v, c) := e in
    dv ← vget dis v;
    n ← iadd usize d c;
    if match dv with None => true | Some x => n <? x end
    then dis ← vset dis v (Some n); Ok (dis, mh_push B q (n, v))
    else Ok (dis, q).

  (** shortest_path.rs:7-17  one turn of the while loop *)
  Definition dijkstra_step (g : wgraph) (st : list (option Z) * bh B)
    : res (list (option Z) * bh B + list (option Z)) :=
    let '(dis, q) := st in
    match mh_pop B q with
    | (None, _) => Ok (inr dis)
    | (Some (d, u), q) =>
        du ← vget dis u;
        if decide (Some d = du) then
          es ← vget g u;
          st ← rfor es (relax d) (dis, q);
          Ok (inl st)
        else Ok (inl (dis, q))
    end.

  (** shortest_path.rs:2-19  dijkstra; the fuel (number of edges + 2) is shown to suffice *)
  Definition dijkstra (g : wgraph) (s : nat) : res (list (option Z)) :=
    let dis := replicate (length g) None in
    let q := mh_push B (mh_new B) (0, s) in
    dis ← vset dis s (Some 0);
    rloop (length (concat g) + 2) (dijkstra_step g) (dis, q).
End Dijkstra.
Close Scope Z_scope.
