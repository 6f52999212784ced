(** src/graph/shortest_path.rs and src/graph/max_flow.rs as compiled by `cargo build --release`: `+`, `-`, `+=` and `-=` wrap.
    Indexing, `assert!` and everything else is as in DijkstraModel.v and DinicModel.v; add_edge has no arithmetic and is the
    same code in both profiles.  The loops take more turns than in the dev profile can be needed, so the fuels are larger. *)
From Verif Require Import Prelude IntModel HeapModel DijkstraModel DinicModel NumReleaseModel.
Open Scope Z_scope.

Section Dijkstra.
  Context (B : binheap (reverse (Z * nat))).

  (** shortest_path.rs:11-16 *)
  Definition relax_release (d : Z) (e : nat * Z) (st : list (option Z) * bh B) : res (list (option Z) * bh B) :=
    let '(dis, q) := st in
    let '(v, c) := e in
    dv ← vget dis v;
    let n := wr_add usize d c in
    if match dv with None => true | Some x => n <? x end
    then dis ← vset dis v (Some n); Ok (dis, mh_push B q (n, v))
    else Ok (dis, q).

  (** shortest_path.rs:7-17 *)
  Definition dijkstra_step_release (g : wgraph) (st : list (option Z) * bh B)
    : res (list (option Z) * bh B + list (option Z)) :=
    let '(dis, q) := st in
    match mh_pop B q with
    | (None, _) => Ok (inr dis)
    | (Some (d, u), q) =>
        du ← vget dis u;
        if decide (Some d = du) then
          es ← vget g u;
          st ← rfor es (relax_release d) (dis, q);
          Ok (inl st)
        else Ok (inl (dis, q))
    end.

  (** shortest_path.rs:2-19; the number of turns allowed is a parameter *)
  Definition dijkstra_release (fuel : nat) (g : wgraph) (s : nat) : res (list (option Z)) :=
    let dis := replicate (length g) None in
    let q := mh_push B (mh_new B) (0, s) in
    dis ← vset dis s (Some 0);
    rloop fuel (dijkstra_step_release g) (dis, q).
End Dijkstra.

(** max_flow.rs:34-43 *)
Fixpoint bfs_scan_release (e : list dedge) (u t : nat) (es : list nat) (h : list Z) (q : list nat)
  : res (bool * (list Z * list nat)) :=
  match es with
  | [] => Ok (false, (h, q))
  | i :: es =>
      x ← vget e i;
      let '(v, c) := x in
      if 0 <? c then
        hv ← vget h v;
        if hv =? -1 then
          hu ← vget h u;
          let d := wr_add i32 hu 1 in
          h ← vset h v d;
          if (v =? t)%nat then Ok (true, (h, q)) else bfs_scan_release e u t es h (q ++ [v])
        else bfs_scan_release e u t es h q
      else bfs_scan_release e u t es h q
  end.

(** max_flow.rs:33-45 *)
Definition bfs_step_release (e : list dedge) (g : list (list nat)) (t : nat) (s : list Z * list nat)
  : res (list Z * list nat + bool * list Z) :=
  let '(h, q) := s in
  match q with
  | [] => Ok (inr (false, h))
  | u :: q =>
      es ← vget g u;
      x ← bfs_scan_release e u t es h q;
      if x.1 : bool then Ok (inr (true, x.2.1)) else Ok (inl x.2)
  end.

(** max_flow.rs:28-46 *)
Definition bfs_release (e : list dedge) (g : list (list nat)) (h : list Z) (s t : nat) : res (bool * list Z) :=
  h ← vset (replicate (length h) (-1)) s 0;
  rloop (S (S (length g))) (bfs_step_release e g t) (h, [s]).

(** max_flow.rs:54-68 *)
Definition dfs_step_release (T : ity) (rec : nat -> Z -> list dedge -> list nat -> res (Z * (list dedge * list nat)))
    (g : list (list nat)) (h : list Z) (u : nat) (s : Z * nat * list dedge * list nat)
  : res (Z * nat * list dedge * list nat + Z * (list dedge * list nat)) :=
  let '(r, i, e, cur) := s in
  js ← vget g u;
  if (i <? length js)%nat then
    j ← vget js i;
    x ← vget e j;
    let '(v, c) := x in
    b ← (if 0 <? c then hv ← vget h v; hu ← vget h u; let d := wr_add i32 hu 1 in Ok (hv =? d) else Ok false);
    if b : bool then
      y ← rec v (Z.min r c) e cur;
      let '(a, (e, cur)) := y in
      ej ← vget e j;
      let c' := wr_sub T ej.2 a in
      e ← vset e j (ej.1, c');
      ek ← vget e (Nat.lxor j 1);
      let c' := wr_add T ek.2 a in
      e ← vset e (Nat.lxor j 1) (ek.1, c');
      let r := wr_sub T r a in
      if r =? 0 then Ok (inr (r, (e, cur)))
      else cur ← vset cur u (i + 1)%nat; Ok (inl (r, (i + 1)%nat, e, cur))
    else cur ← vset cur u (i + 1)%nat; Ok (inl (r, (i + 1)%nat, e, cur))
  else Ok (inr (r, (e, cur))).

(** max_flow.rs:48-70 *)
Fixpoint fdfs_release (fuel : nat) (T : ity) (g : list (list nat)) (h : list Z) (t u : nat) (f : Z)
    (e : list dedge) (cur : list nat) : res (Z * (list dedge * list nat)) :=
  match fuel with
  | O => Diverge
  | S fuel =>
      if (u =? t)%nat then Ok (f, (e, cur)) else
      i ← vget cur u;
      js ← vget g u;
      x ← rloop (S (length js)) (dfs_step_release T (fdfs_release fuel T g h t) g h u) (f, i, e, cur);
      let a := wr_sub T f x.1 in
      Ok (a, x.2)
  end.

(** max_flow.rs:83-86 *)
Definition flow_step_release (T : ity) (s t : nat) (x : Z * dinic) : res (Z * dinic + Z * dinic) :=
  let '(ans, d) := x in
  y ← bfs_release (dn_e d) (dn_g d) (dn_h d) s t;
  let '(b, h) := y in
  if b : bool then
    let cur := replicate (length (dn_cur d)) 0%nat in
    z ← fdfs_release (S (S (length (dn_g d)))) T (dn_g d) h t s (it_max T) (dn_e d) cur;
    let '(a, (e, cur)) := z in
    let ans := wr_add T ans a in
    Ok (inl (ans, DN (dn_n d) e (dn_g d) cur h))
  else Ok (inr (ans, DN (dn_n d) (dn_e d) (dn_g d) (dn_cur d) h)).

(** max_flow.rs:79-88; a phase that sends T::MAX need not bring the search any further, hence the second summand of the fuel *)
Definition dn_max_flow_release (T : ity) (d : dinic) (s t : nat) : res (dinic * Z) :=
  rassert (s <? dn_n d)%nat ;;
  rassert (t <? dn_n d)%nat ;;
  x ← rloop (S (S (dn_n d + length (dn_e d)))) (flow_step_release T s t) (0, d);
  Ok (x.2, x.1).

(** Calls by a user. *)
Definition dn_step_release (T : ity) (d : dinic) (o : dn_op) : res (dinic * option Z) :=
  match o with
  | DnEdge u v c => d ← dn_add_edge d u v c; Ok (d, None)
  | DnFlow s t => x ← dn_max_flow_release T d s t; Ok (x.1, Some x.2)
  end.
Close Scope Z_scope.
