(** Model of src/graph/bipartite_matching.rs *)
From Verif Require Import Prelude.

(** bipartite_matching.rs:1-6  AugmentedPath *)
Record bm := BM { bm_g : list (list nat); bm_l : list (option nat); bm_r : list (option nat); bm_vis : list bool }.

(** What dfs mutates: vis, l, r *)
Definition mst : Type := list bool * list (option nat) * list (option nat).

(** bipartite_matching.rs:10-17  new *)
Definition bm_new (n m : nat) : bm := BM (replicate n []) (replicate n None) (replicate m None) (replicate n false).

(** bipartite_matching.rs:19-21  add_edge *)
Definition bm_add_edge (b : bm) (u v : nat) : res bm :=
  es ← vget (bm_g b) u;
  g ← vset (bm_g b) u (es ++ [v]);
  Ok (BM g (bm_l b) (bm_r b) (bm_vis b)).

(** bipartite_matching.rs:28-34  first loop of dfs: the first v with r[v] None *)
Fixpoint find_free (r : list (option nat)) (es : list nat) : res (option nat) :=
  match es with
  | [] => Ok None
  | v :: es => rv ← vget r v; match rv with None => Ok (Some v) | Some _ => find_free r es end
  end.

(** bipartite_matching.rs:30-31, 38-39  l[u] = Some(v); r[v] = Some(u); return true *)
Definition take_edge (u v : nat) (st : mst) : res (bool * mst) :=
  let '(vis, l, r) := st in
  l ← vset l u (Some v);
  r ← vset r v (Some u);
  Ok (true, (vis, l, r)).

(** bipartite_matching.rs:36-43  second loop of dfs, with the recursive call abstracted *)
Fixpoint try_edges (rec : nat -> mst -> res (bool * mst)) (u : nat) (es : list nat) (st : mst) : res (bool * mst) :=
  match es with
  | [] => Ok (false, st)
  | v :: es =>
      rv ← vget st.2 v;
      w ← runwrap rv;
      x ← rec w st;
      if x.1 : bool then take_edge u v x.2 else try_edges rec u es x.2
  end.

(** bipartite_matching.rs:23-44  dfs; recursion is bounded by fuel, shown to suffice *)
Fixpoint mdfs (fuel : nat) (g : list (list nat)) (u : nat) (st : mst) : res (bool * mst) :=
  match fuel with
  | O => Diverge
  | S fuel =>
      let '(vis, l, r) := st in
      b ← vget vis u;
      if b : bool then Ok (false, st) else
      vis ← vset vis u true;
      es ← vget g u;
      f ← find_free r es;
      match f with
      | Some v => take_edge u v (vis, l, r)
      | None => try_edges (mdfs fuel g) u es (vis, l, r)
      end
  end.

(** bipartite_matching.rs:50-54  one turn of the for loop in solve; state: ok flag and vis, l, r *)
Definition round_body (g : list (list nat)) (i : nat) (s : bool * mst) : res (bool * mst) :=
  let '(ok, (vis, l, r)) := s in
  li ← vget l i;
  match li with
  | None => x ← mdfs (S (length vis)) g i (vis, l, r); Ok (ok || x.1, x.2)
  | Some _ => Ok s
  end.

(** bipartite_matching.rs:47-58  one turn of the outer loop *)
Definition solve_step (g : list (list nat)) (s : mst) : res (mst + mst) :=
  let '(vis, l, r) := s in
  x ← rfor (range 0 (length l)) (round_body g) (false, (replicate (length vis) false, l, r));
  if x.1 : bool then Ok (inl x.2) else Ok (inr x.2).

(** bipartite_matching.rs:46-66  solve; outer rounds bounded by fuel, shown to suffice *)
Definition bm_solve (b : bm) : res (bm * nat) :=
  x ← rloop (S (length (bm_l b))) (solve_step (bm_g b)) (bm_vis b, bm_l b, bm_r b);
  let '(vis, l, r) := x in
  ret ← rfor (range 0 (length l)) (fun i ret => li ← vget l i; Ok (match li with Some _ => ret + 1 | None => ret end)) 0;
  Ok (BM (bm_g b) l r vis, ret).

(** Calls by a user. *)
Inductive bm_op := BmEdge (u v : nat) | BmSolve.
Definition bm_step (b : bm) (o : bm_op) : res (bm * option nat) :=
  match o with
  | BmEdge u v => b ← bm_add_edge b u v; Ok (b, None)
  | BmSolve => x ← bm_solve b; Ok (x.1, Some x.2)
  end.
