(** src/graph/bipartite_matching.rs, src/graph/tarjan.rs and src/graph/max_flow.rs again, counting steps: calls of the recursive
    functions, turns of the loops, and one step per element for `fill`.  The counter is the state of Eff.v. *)
From Verif Require Import Prelude Eff IntModel MatchingModel SccModel DinicModel.

(** One step; k steps *)
Definition tick : eff nat unit := fun w => Ok (tt, w + 1).
Definition ticks (k : nat) : eff nat unit := fun w => Ok (tt, w + k).

(** bipartite_matching.rs:28-34  first loop of dfs *)
Fixpoint find_freeW (r : list (option nat)) (es : list nat) : eff nat (option nat) :=
  match es with
  | [] => eret None
  | v :: es => tick ;;* rv <* elift (vget r v) ;* match rv with None => eret (Some v) | Some _ => find_freeW r es end
  end.

(** bipartite_matching.rs:36-43  second loop of dfs, with the recursive call abstracted *)
Fixpoint try_edgesW (rec : nat -> mst -> eff nat (bool * mst)) (u : nat) (es : list nat) (st : mst) : eff nat (bool * mst) :=
  match es with
  | [] => eret (false, st)
  | v :: es =>
      tick ;;*
      rv <* elift (vget st.2 v) ;*
      w <* elift (runwrap rv) ;*
      x <* rec w st ;*
      if x.1 : bool then elift (take_edge u v x.2) else try_edgesW rec u es x.2
  end.

(** bipartite_matching.rs:23-44  dfs *)
Fixpoint mdfsW (fuel : nat) (g : list (list nat)) (u : nat) (st : mst) : eff nat (bool * mst) :=
  match fuel with
  | O => fun _ => Diverge
  | S fuel =>
      tick ;;*
      let '(vis, l, r) := st in
      b <* elift (vget vis u) ;*
      if b : bool then eret (false, st) else
      vis <* elift (vset vis u true) ;*
      es <* elift (vget g u) ;*
      f <* find_freeW r es ;*
      match f with
      | Some v => elift (take_edge u v (vis, l, r))
      | None => try_edgesW (mdfsW fuel g) u es (vis, l, r)
      end
  end.

(** bipartite_matching.rs:50-54  one turn of the for loop in solve *)
Definition round_bodyW (g : list (list nat)) (i : nat) (s : bool * mst) : eff nat (bool * mst) :=
  tick ;;*
  let '(ok, (vis, l, r)) := s in
  li <* elift (vget l i) ;*
  match li with
  | None => x <* mdfsW (S (length vis)) g i (vis, l, r) ;* eret (ok || x.1, x.2)
  | Some _ => eret s
  end.

(** bipartite_matching.rs:47-58  one turn of the outer loop *)
Definition solve_stepW (g : list (list nat)) (s : mst) : eff nat (mst + mst) :=
  tick ;;*
  let '(vis, l, r) := s in
  ticks (length vis) ;;*
  x <* efor (range 0 (length l)) (round_bodyW g) (false, (replicate (length vis) false, l, r)) ;*
  if x.1 : bool then eret (inl x.2) else eret (inr x.2).

(** bipartite_matching.rs:46-66  solve *)
Definition bm_solveW (b : bm) : eff nat (bm * nat) :=
  x <* eloop (S (length (bm_l b))) (solve_stepW (bm_g b)) (bm_vis b, bm_l b, bm_r b) ;*
  let '(vis, l, r) := x in
  ret <* efor (range 0 (length l)) (fun i ret => tick ;;* li <* elift (vget l i) ;* eret (match li with Some _ => ret + 1 | None => ret end)) 0 ;*
  eret (BM (bm_g b) l r vis, ret).

(** Calls by a user; add_edge takes no step. *)
Definition bm_stepW (b : bm) (o : bm_op) : eff nat (bm * option nat) :=
  match o with
  | BmEdge u v => b <* elift (bm_add_edge b u v) ;* eret (b, None)
  | BmSolve => x <* bm_solveW b ;* eret (x.1, Some x.2)
  end.

Open Scope Z_scope.
(** tarjan.rs:37-44  the popping loop *)
Fixpoint pop_compW (u : nat) (stk : list nat) (ons : list bool) (comp : list nat) : eff nat (list nat * list bool * list nat) :=
  tick ;;*
  match stk with
  | [] => elift Panic
  | v :: stk =>
      ons <* elift (vset ons v false) ;*
      let comp := comp ++ [v] in
      if (u =? v)%nat then eret (stk, ons, comp) else pop_compW u stk ons comp
  end.

(** tarjan.rs:28-33  body of the for loop over g[u] *)
Definition edge_bodyW (rec : nat -> tj -> eff nat tj) (u v : nat) (st : tj) : eff nat tj :=
  tick ;;*
  o <* elift (vget (tj_ord st) v) ;*
  st <* (if o =? -1 then rec v st else eret st) ;*
  b <* elift (vget (tj_ons st) v) ;*
  if b : bool then
    lu <* elift (vget (tj_low st) u) ;*
    lv <* elift (vget (tj_low st) v) ;*
    low <* elift (vset (tj_low st) u (Z.min lu lv)) ;*
    eret (TJ (tj_pos st) (tj_ons st) low (tj_ord st) (tj_stk st) (tj_comp st))
  else eret st.

(** tarjan.rs:35-45  leaving u *)
Definition tj_leaveW (u : nat) (st : tj) : eff nat tj :=
  lu <* elift (vget (tj_low st) u) ;*
  ou <* elift (vget (tj_ord st) u) ;*
  if lu =? ou then
    x <* pop_compW u (tj_stk st) (tj_ons st) [] ;*
    let '(stk, ons, comp) := x in
    eret (TJ (tj_pos st) ons (tj_low st) (tj_ord st) stk (tj_comp st ++ [comp]))
  else eret st.

(** tarjan.rs:21-46  dfs *)
Fixpoint tdfsW (fuel : nat) (g : list (list nat)) (u : nat) (st : tj) : eff nat tj :=
  match fuel with
  | O => fun _ => Diverge
  | S fuel =>
      tick ;;*
      st <* elift (tj_enter u st) ;*
      es <* elift (vget g u) ;*
      st <* efor es (edge_bodyW (tdfsW fuel g) u) st ;*
      tj_leaveW u st
  end.

(** tarjan.rs:52-68  scc *)
Definition sccW (g : list (list nat)) : eff nat (nat * list nat) :=
  let n := length g in
  st <* efor (range 0 n) (fun i st =>
         tick ;;*
         o <* elift (vget (tj_ord st) i) ;*
         if o =? -1 then tdfsW (S n) g i st else eret st) (tj_new n) ;*
  let cnt := length (tj_comp st) in
  color <* efor (zip (range 0 cnt) (tj_comp st)) (fun ic color =>
         tick ;;* efor ic.2 (fun x color => tick ;;* elift (vset color x ic.1)) color) (replicate n 0%nat) ;*
  eret (cnt, color).

(** max_flow.rs:34-43  the for loop of bfs *)
Fixpoint bfs_scanW (e : list dedge) (u t : nat) (es : list nat) (h : list Z) (q : list nat)
  : eff nat (bool * (list Z * list nat)) :=
  match es with
  | [] => eret (false, (h, q))
  | i :: es =>
      tick ;;*
      x <* elift (vget e i) ;*
      let '(v, c) := x in
      if 0 <? c then
        hv <* elift (vget h v) ;*
        if hv =? -1 then
          hu <* elift (vget h u) ;*
          d <* elift (iadd i32 hu 1) ;*
          h <* elift (vset h v d) ;*
          if (v =? t)%nat then eret (true, (h, q)) else bfs_scanW e u t es h (q ++ [v])
        else bfs_scanW e u t es h q
      else bfs_scanW e u t es h q
  end.

(** max_flow.rs:33-45  one turn of `while let Some(u) = q.pop_front()` *)
Definition bfs_stepW (e : list dedge) (g : list (list nat)) (t : nat) (s : list Z * list nat)
  : eff nat (list Z * list nat + bool * list Z) :=
  tick ;;*
  let '(h, q) := s in
  match q with
  | [] => eret (inr (false, h))
  | u :: q =>
      es <* elift (vget g u) ;*
      x <* bfs_scanW e u t es h q ;*
      if x.1 : bool then eret (inr (true, x.2.1)) else eret (inl x.2)
  end.

(** max_flow.rs:28-46  bfs *)
Definition bfsW (e : list dedge) (g : list (list nat)) (h : list Z) (s t : nat) : eff nat (bool * list Z) :=
  ticks (length h) ;;*
  h <* elift (vset (replicate (length h) (-1)) s 0) ;*
  eloop (S (S (length g))) (bfs_stepW e g t) (h, [s]).

(** max_flow.rs:54-68  one turn of the while loop of dfs *)
Definition dfs_stepW (T : ity) (rec : nat -> Z -> list dedge -> list nat -> eff nat (Z * (list dedge * list nat)))
    (g : list (list nat)) (h : list Z) (u : nat) (s : Z * nat * list dedge * list nat)
  : eff nat (Z * nat * list dedge * list nat + Z * (list dedge * list nat)) :=
  tick ;;*
  let '(r, i, e, cur) := s in
  js <* elift (vget g u) ;*
  if (i <? length js)%nat then
    j <* elift (vget js i) ;*
    x <* elift (vget e j) ;*
    let '(v, c) := x in
    b <* elift (if 0 <? c then hv ← vget h v; hu ← vget h u; d ← iadd i32 hu 1; Ok (hv =? d) else Ok false) ;*
    if b : bool then
      y <* rec v (Z.min r c) e cur ;*
      let '(a, (e, cur)) := y in
      ej <* elift (vget e j) ;*
      c' <* elift (isub T ej.2 a) ;*
      e <* elift (vset e j (ej.1, c')) ;*
      ek <* elift (vget e (Nat.lxor j 1)) ;*
      c' <* elift (iadd T ek.2 a) ;*
      e <* elift (vset e (Nat.lxor j 1) (ek.1, c')) ;*
      r <* elift (isub T r a) ;*
      if r =? 0 then eret (inr (r, (e, cur)))
      else cur <* elift (vset cur u (i + 1)%nat) ;* eret (inl (r, (i + 1)%nat, e, cur))
    else cur <* elift (vset cur u (i + 1)%nat) ;* eret (inl (r, (i + 1)%nat, e, cur))
  else eret (inr (r, (e, cur))).

(** max_flow.rs:48-70  dfs *)
Fixpoint fdfsW (fuel : nat) (T : ity) (g : list (list nat)) (h : list Z) (t u : nat) (f : Z)
    (e : list dedge) (cur : list nat) : eff nat (Z * (list dedge * list nat)) :=
  match fuel with
  | O => fun _ => Diverge
  | S fuel =>
      tick ;;*
      if (u =? t)%nat then eret (f, (e, cur)) else
      i <* elift (vget cur u) ;*
      js <* elift (vget g u) ;*
      x <* eloop (S (length js)) (dfs_stepW T (fdfsW fuel T g h t) g h u) (f, i, e, cur) ;*
      a <* elift (isub T f x.1) ;*
      eret (a, x.2)
  end.

(** max_flow.rs:83-86  one turn of `while self.bfs(s, t)` *)
Definition flow_stepW (T : ity) (s t : nat) (x : Z * dinic) : eff nat (Z * dinic + Z * dinic) :=
  tick ;;*
  let '(ans, d) := x in
  y <* bfsW (dn_e d) (dn_g d) (dn_h d) s t ;*
  let '(b, h) := y in
  if b : bool then
    ticks (length (dn_cur d)) ;;*
    let cur := replicate (length (dn_cur d)) 0%nat in
    z <* fdfsW (S (S (length (dn_g d)))) T (dn_g d) h t s (it_max T) (dn_e d) cur ;*
    let '(a, (e, cur)) := z in
    ans <* elift (iadd T ans a) ;*
    eret (inl (ans, DN (dn_n d) e (dn_g d) cur h))
  else eret (inr (ans, DN (dn_n d) (dn_e d) (dn_g d) (dn_cur d) h)).

(** max_flow.rs:79-88  get_max_flow *)
Definition dn_max_flowW (T : ity) (d : dinic) (s t : nat) : eff nat (dinic * Z) :=
  elift (rassert (s <? dn_n d)%nat) ;;*
  elift (rassert (t <? dn_n d)%nat) ;;*
  x <* eloop (S (S (dn_n d))) (flow_stepW T s t) (0, d) ;*
  eret (x.2, x.1).

(** Calls by a user, as DinicModel.dn_step. *)
Definition dn_stepW (T : ity) (d : dinic) (o : dn_op) : eff nat (dinic * option Z) :=
  match o with
  | DnEdge u v c => d <* elift (dn_add_edge d u v c) ;* eret (d, None)
  | DnFlow s t => x <* dn_max_flowW T d s t ;* eret (x.1, Some x.2)
  end.
Close Scope Z_scope.
