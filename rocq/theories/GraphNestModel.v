(** The recursive searches of src/graph/tarjan.rs, src/graph/bipartite_matching.rs and src/graph/max_flow.rs with room for k nested calls of
    dfs on the stack: the programs of SccModel.v, MatchingModel.v and DinicModel.v with k for the number of nested calls; Diverge stands
    for running out of stack.  Frames of other functions are not counted. *)
From Verif Require Import Prelude IntModel SccModel MatchingModel DinicModel.

(** tarjan.rs:52-68  scc *)
Definition scc_stack (k : nat) (g : list (list nat)) : res (nat * list nat) :=
  let n := length g in
  st ← rfor (range 0 n) (fun i st =>
         o ← vget (tj_ord st) i;
         if (o =? -1)%Z then tdfs k g i st else Ok st) (tj_new n);
  let cnt := length (tj_comp st) in
  color ← rfor (zip (range 0 cnt) (tj_comp st)) (fun ic color =>
         rfor ic.2 (fun x color => vset color x ic.1) color) (replicate n 0);
  Ok (cnt, color).

(** bipartite_matching.rs:50-54  one turn of the for loop in solve *)
Definition round_body_stack (k : nat) (g : list (list nat)) (i : nat) (s : bool * mst) : res (bool * mst) :=
  let '(ok, (vis, l, r)) := s in
  li ← vget l i;
  match li with
  | None => x ← mdfs k g i (vis, l, r); Ok (ok || x.1, x.2)
  | Some _ => Ok s
  end.
(** bipartite_matching.rs:47-58  one turn of the outer loop *)
Definition solve_step_stack (k : nat) (g : list (list nat)) (s : mst) : res (mst + mst) :=
  let '(vis, l, r) := s in
  x ← rfor (range 0 (length l)) (round_body_stack k g) (false, (replicate (length vis) false, l, r));
  if x.1 : bool then Ok (inl x.2) else Ok (inr x.2).
(** bipartite_matching.rs:46-66  solve *)
Definition bm_solve_stack (k : nat) (b : bm) : res (bm * nat) :=
  x ← rloop (S (length (bm_l b))) (solve_step_stack k (bm_g b)) (bm_vis b, bm_l b, bm_r b);
  let '(vis, l, r) := x in
  ret ← rfor (range 0 (length l)) (fun i ret => li ← vget l i; Ok (match li with Some _ => ret + 1 | None => ret end)) 0;
  Ok (BM (bm_g b) l r vis, ret).
(** Calls by a user. *)
Definition bm_step_stack (k : nat) (b : bm) (o : bm_op) : res (bm * option nat) :=
  match o with
  | BmEdge u v => b ← bm_add_edge b u v; Ok (b, None)
  | BmSolve => x ← bm_solve_stack k b; Ok (x.1, Some x.2)
  end.

(** max_flow.rs:83-86  one turn of `while self.bfs(s, t)` *)
Definition flow_step_stack (k : nat) (T : ity) (s t : nat) (x : Z * dinic) : res (Z * dinic + Z * dinic) :=
  let '(ans, d) := x in
  y ← bfs (dn_e d) (dn_g d) (dn_h d) s t;
  let '(b, h) := y in
  if b : bool then
    let cur := replicate (length (dn_cur d)) 0 in
    z ← fdfs k T (dn_g d) h t s (it_max T) (dn_e d) cur;
    let '(a, (e, cur)) := z in
    ans ← iadd T ans a;
    Ok (inl (ans, DN (dn_n d) e (dn_g d) cur h))
  else Ok (inr (ans, DN (dn_n d) (dn_e d) (dn_g d) (dn_cur d) h)).
(** max_flow.rs:79-88  get_max_flow *)
Definition dn_max_flow_stack (k : nat) (T : ity) (d : dinic) (s t : nat) : res (dinic * Z) :=
  rassert (s <? dn_n d) ;;
  rassert (t <? dn_n d) ;;
  x ← rloop (S (S (dn_n d))) (flow_step_stack k T s t) (0%Z, d);
  Ok (x.2, x.1).
(** Calls by a user. *)
Definition dn_step_stack (k : nat) (T : ity) (d : dinic) (o : dn_op) : res (dinic * option Z) :=
  match o with
  | DnEdge u v c => d ← dn_add_edge d u v c; Ok (d, None)
  | DnFlow s t => x ← dn_max_flow_stack k T d s t; Ok (x.1, Some x.2)
  end.
