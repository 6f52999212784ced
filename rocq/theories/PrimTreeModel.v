(** A client: Prim's algorithm with MinHeap (data_structure/min_heap.rs).  Not code of /repo. *)
From Verif Require Import Prelude HeapModel.

(** g[a].push(x) *)
Definition row_push (g : list (list (nat * nat))) (a : nat) (x : nat * nat) : res (list (list (nat * nat))) :=
  row ← vget g a;
  vset g a (row ++ [x]).
(** let mut g = vec![vec![]; n]; for (i, &(a, b, _)) in es.iter().enumerate() { g[a].push((b, i)); g[b].push((a, i)); } *)
Definition adjacency (n : nat) (es : list (nat * nat * Z)) : res (list (list (nat * nat))) :=
  rfor (range 0 (length es)) (fun i g => e ← vget es i; g ← row_push g e.1.1 (e.1.2, i); row_push g e.1.2 (e.1.1, i)) (replicate n []).

Section Prim.
  Context (B : binheap (reverse (Z * nat * nat))).
  (** for &(x, j) in &g[v] { h.push((es[j].2, x, j)); } *)
  Definition push_row (es : list (nat * nat * Z)) (row : list (nat * nat)) (h : bh B) : res (bh B) :=
    rfor row (fun xj h => e ← vget es xj.2; Ok (mh_push B h (e.2, xj.1, xj.2))) h.
  (** while let Some((_, v, i)) = h.pop() { if vis[v] { continue; } vis[v] = true; tree.push(i); push the row of v } *)
  Definition prim_step (es : list (nat * nat * Z)) (g : list (list (nat * nat))) (s : list bool * bh B * list nat) : res (list bool * bh B * list nat + list nat) :=
    let '(vis, h, tree) := s in
    match mh_pop B h with
    | (None, _) => Ok (inr tree)
    | (Some (_, v, i), h) =>
        seen ← vget vis v;
        if seen : bool then Ok (inl (vis, h, tree))
        else
          vis ← vset vis v true;
          row ← vget g v;
          h ← push_row es row h;
          Ok (inl (vis, h, tree ++ [i]))
    end.
  (** The indices of the edges of the tree grown from root. *)
  Definition prim (n : nat) (es : list (nat * nat * Z)) (root : nat) : res (list nat) :=
    g ← adjacency n es;
    vis ← vset (replicate n false) root true;
    row ← vget g root;
    h ← push_row es row (mh_new B);
    rloop (S (length (concat g))) (prim_step es g) (vis, h, []).
End Prim.
