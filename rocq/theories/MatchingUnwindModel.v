(** src/graph/bipartite_matching.rs with panics that are caught: the code of MatchingModel.v, writing to the memory step by
    step. *)
From Verif Require Import Prelude Unwind MatchingModel.

(** bipartite_matching.rs:19-21  add_edge *)
Definition bmu_add_edge (u v : nat) : uw bm unit :=
  es <~ uread (fun b => vget (bm_g b) u) ;~
  uwrite (fun b => g ← vset (bm_g b) u (es ++ [v]); Ok (BM g (bm_l b) (bm_r b) (bm_vis b))).

(** bipartite_matching.rs:30-31, 38-39  l[u] = Some(v); r[v] = Some(u); return true.  The memory is vis, l, r,
    what dfs borrows mutably. *)
Definition bmu_take_edge (u v : nat) : uw mst bool :=
  uwrite (fun '(vis, l, r) => l ← vset l u (Some v); Ok (vis, l, r)) ;;~
  uwrite (fun '(vis, l, r) => r ← vset r v (Some u); Ok (vis, l, r)) ;;~
  uret true.

(** bipartite_matching.rs:36-43  second loop of dfs, with the recursive call abstracted *)
Fixpoint bmu_try_edges (rec : nat -> uw mst bool) (u : nat) (es : list nat) : uw mst bool :=
  match es with
  | [] => uret false
  | v :: es =>
      w <~ uread (fun st => rv ← vget st.2 v; runwrap rv) ;~
      b <~ rec w ;~
      if b : bool then bmu_take_edge u v else bmu_try_edges rec u es
  end.

(** bipartite_matching.rs:23-44  dfs *)
Fixpoint bmu_dfs (fuel : nat) (g : list (list nat)) (u : nat) : uw mst bool :=
  match fuel with
  | O => fun _ => Diverge
  | S fuel =>
      b <~ uread (fun st => vget st.1.1 u) ;~
      if b : bool then uret false else
      uwrite (fun '(vis, l, r) => vis ← vset vis u true; Ok (vis, l, r)) ;;~
      es <~ uread (fun _ => vget g u) ;~
      f <~ uread (fun st => find_free st.2 es) ;~
      match f with
      | Some v => bmu_take_edge u v
      | None => bmu_try_edges (bmu_dfs fuel g) u es
      end
  end.

(** bipartite_matching.rs:50-54  one turn of the for loop in solve; ok is a local variable *)
Definition bmu_round_body (g : list (list nat)) (i : nat) (ok : bool) : uw mst bool :=
  li <~ uread (fun st => vget st.1.2 i) ;~
  match li with
  | None => x <~ (fun st => bmu_dfs (S (length st.1.1)) g i st) ;~ uret (ok || x)
  | Some _ => uret ok
  end.

(** bipartite_matching.rs:47-58  one turn of the outer loop *)
Definition bmu_solve_step (g : list (list nat)) (_ : unit) : uw mst (unit + unit) :=
  uwrite (fun '(vis, l, r) => Ok (replicate (length vis) false, l, r)) ;;~
  n <~ uread (fun st => Ok (length st.1.2)) ;~
  ok <~ ufor (range 0 n) (bmu_round_body g) false ;~
  uret (if ok : bool then inl tt else inr tt).

(** bipartite_matching.rs:46-66  solve *)
Definition bmu_solve : uw bm nat := fun b =>
  '(st, o) ← (n <~ uread (fun st => Ok (length st.1.2)) ;~
              uloop (S n) (bmu_solve_step (bm_g b)) tt ;;~
              uread (fun st => rfor (range 0 (length st.1.2))
                (fun i ret => li ← vget st.1.2 i; Ok (match li with Some _ => ret + 1 | None => ret end)) 0))
             (bm_vis b, bm_l b, bm_r b);
  let '(vis, l, r) := st in Ok (BM (bm_g b) l r vis, o).

(** Calls by a user. *)
Definition bmu_step (o : bm_op) : uw bm (option nat) :=
  match o with
  | BmEdge u v => bmu_add_edge u v ;;~ uret None
  | BmSolve => k <~ bmu_solve ;~ uret (Some k)
  end.
