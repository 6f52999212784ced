(** src/graph/shortest_path.rs again, with the list, oldest first, of what the run does to the heap and to the graph. *)
From Verif Require Import Prelude IntModel HeapModel DijkstraModel.
Open Scope Z_scope.

Inductive dj_event :=
| DjPush (d : Z) (v : nat)      (* q.push((d, v)) *)
| DjPop (d : Z) (u : nat)       (* q.pop() gave (d, u) *)
| DjScan (d : Z) (u : nat)      (* the loop over g[u] starts, with this d *)
| DjEdge (u v : nat) (c : Z).   (* the loop over g[u] reads the edge (v, c) *)

Section Dijkstra.
  Context (B : binheap (reverse (Z * nat))).

  (** shortest_path.rs:11-16  the loop over the edges of u *)
  Definition relax_log (d : Z) (u : nat) (e : nat * Z) (st : list (option Z) * bh B * list dj_event)
    : res (list (option Z) * bh B * list dj_event) :=
    let '(dis, q, w) := st in
    let '(v, c) := e in
    let w := w ++ [DjEdge u v c] in
    dv ← vget dis v;
    n ← iadd usize d c;
    if match dv with None => true | Some x => n <? x end
    then dis ← vset dis v (Some n); Ok (dis, mh_push B q (n, v), w ++ [DjPush n v])
    else Ok (dis, q, w).

  (** shortest_path.rs:7-17  one turn of the while loop *)
  Definition dijkstra_step_log (g : wgraph) (st : list (option Z) * bh B * list dj_event)
    : res (list (option Z) * bh B * list dj_event + list (option Z) * list dj_event) :=
    let '(dis, q, w) := st in
    match mh_pop B q with
    | (None, _) => Ok (inr (dis, w))
    | (Some (d, u), q) =>
        let w := w ++ [DjPop d u] in
        du ← vget dis u;
        if decide (Some d = du) then
          es ← vget g u;
          st ← rfor es (relax_log d u) (dis, q, w ++ [DjScan d u]);
          Ok (inl st)
        else Ok (inl (dis, q, w))
    end.

  (** shortest_path.rs:2-19  dijkstra; the fuel is that of [dijkstra] *)
  Definition dijkstra_log (g : wgraph) (s : nat) : res (list (option Z) * list dj_event) :=
    let dis := replicate (length g) None in
    let q := mh_push B (mh_new B) (0, s) in
    let w := [DjPush 0 s] in
    dis ← vset dis s (Some 0);
    rloop (length (concat g) + 2) (dijkstra_step_log g) (dis, q, w).
End Dijkstra.
Close Scope Z_scope.
