(** Model of src/graph/max_flow.rs *)
From Verif Require Import Prelude IntModel.
Open Scope Z_scope.

(** max_flow.rs:5-8  Edge { to, cap } *)
Notation dedge := (nat * Z)%type.
(** max_flow.rs:9-15  Dinic *)
Record dinic := DN { dn_n : nat; dn_e : list dedge; dn_g : list (list nat); dn_cur : list nat; dn_h : list Z }.

(** max_flow.rs:18-26  new *)
Definition dn_new (n : nat) : dinic := DN n [] (replicate n []) (replicate n 0%nat) (replicate n (-1)).

(** max_flow.rs:34-43  the for loop of bfs over the edges of u: true when t was reached *)
Fixpoint bfs_scan (e : list dedge) (u t : nat) (es : list nat) (h : list Z) (q : list nat)
  : res (bool * (list Z * list nat)) :=
  match es with
  | [] => Ok (false, (h, q))
  | i :: es =>
      x ← vget e i;
      let '(v, c) := x in
      if 0 <? c then
        hv ← vget h v;
        if hv =? -1 then
          hu ← vget h u;
          d ← iadd i32 hu 1;
          h ← vset h v d;
          if (v =? t)%nat then Ok (true, (h, q)) else bfs_scan e u t es h (q ++ [v])
        else bfs_scan e u t es h q
      else bfs_scan e u t es h q
  end.

(** max_flow.rs:33-45  one turn of `while let Some(u) = q.pop_front()` *)
Definition bfs_step (e : list dedge) (g : list (list nat)) (t : nat) (s : list Z * list nat)
  : res (list Z * list nat + bool * list Z) :=
  let '(h, q) := s in
  match q with
  | [] => Ok (inr (false, h))
  | u :: q =>
      es ← vget g u;
      x ← bfs_scan e u t es h q;
      if x.1 : bool then Ok (inr (true, x.2.1)) else Ok (inl x.2)
  end.

(** max_flow.rs:28-46  bfs: the answer and the new h *)
Definition bfs (e : list dedge) (g : list (list nat)) (h : list Z) (s t : nat) : res (bool * list Z) :=
  h ← vset (replicate (length h) (-1)) s 0;
  rloop (S (S (length g))) (bfs_step e g t) (h, [s]).

(** max_flow.rs:54-68  one turn of the while loop of dfs; the state is r, i, e, cur;
    the recursive call is a parameter *)
Definition dfs_step (T : ity) (rec : nat -> Z -> list dedge -> list nat -> res (Z * (list dedge * list nat)))
    (g : list (list nat)) (h : list Z) (u : nat) (s : Z * nat * list dedge * list nat)
  : res (Z * nat * list dedge * list nat + Z * (list dedge * list nat)) :=
  let '(r, i, e, cur) := s in
  js ← vget g u;
  if (i <? length js)%nat then
    j ← vget js i;
    x ← vget e j;
    let '(v, c) := x in
    b ← (if 0 <? c then hv ← vget h v; hu ← vget h u; d ← iadd i32 hu 1; Ok (hv =? d) else Ok false);
    if b : bool then
      y ← rec v (Z.min r c) e cur;
      let '(a, (e, cur)) := y in
      ej ← vget e j;
      c' ← isub T ej.2 a;
      e ← vset e j (ej.1, c');
      ek ← vget e (Nat.lxor j 1);
      c' ← iadd T ek.2 a;
      e ← vset e (Nat.lxor j 1) (ek.1, c');
      r ← isub T r a;
      if r =? 0 then Ok (inr (r, (e, cur)))
      else cur ← vset cur u (i + 1)%nat; Ok (inl (r, (i + 1)%nat, e, cur))
    else cur ← vset cur u (i + 1)%nat; Ok (inl (r, (i + 1)%nat, e, cur))
  else Ok (inr (r, (e, cur))).

(** max_flow.rs:48-70  dfs; recursion and loop bounded by fuel, shown to suffice *)
Fixpoint fdfs (fuel : nat) (T : ity) (g : list (list nat)) (h : list Z) (t u : nat) (f : Z)
    (e : list dedge) (cur : list nat) : res (Z * (list dedge * list nat)) :=
  match fuel with
  | O => Diverge
  | S fuel =>
      if (u =? t)%nat then Ok (f, (e, cur)) else
      i ← vget cur u;
      js ← vget g u;
      x ← rloop (S (length js)) (dfs_step T (fdfs fuel T g h t) g h u) (f, i, e, cur);
      a ← isub T f x.1;
      Ok (a, x.2)
  end.

(** max_flow.rs:72-77  add_edge *)
Definition dn_add_edge (d : dinic) (u v : nat) (c : Z) : res dinic :=
  gu ← vget (dn_g d) u;
  g ← vset (dn_g d) u (gu ++ [length (dn_e d)]);
  let e := dn_e d ++ [(v, c)] in
  gv ← vget g v;
  g ← vset g v (gv ++ [length e]);
  let e := e ++ [(u, 0)] in
  Ok (DN (dn_n d) e g (dn_cur d) (dn_h d)).

(** max_flow.rs:83-86  one turn of `while self.bfs(s, t)`; state: ans and the structure *)
Definition flow_step (T : ity) (s t : nat) (x : Z * dinic) : res (Z * dinic + Z * dinic) :=
  let '(ans, d) := x in
  y ← bfs (dn_e d) (dn_g d) (dn_h d) s t;
  let '(b, h) := y in
  if b : bool then
    let cur := replicate (length (dn_cur d)) 0%nat in
    z ← fdfs (S (S (length (dn_g d)))) T (dn_g d) h t s (it_max T) (dn_e d) cur;
    let '(a, (e, cur)) := z in
    ans ← iadd T ans a;
    Ok (inl (ans, DN (dn_n d) e (dn_g d) cur h))
  else Ok (inr (ans, DN (dn_n d) (dn_e d) (dn_g d) (dn_cur d) h)).

(** max_flow.rs:79-88  get_max_flow; phases bounded by fuel, shown to suffice *)
Definition dn_max_flow (T : ity) (d : dinic) (s t : nat) : res (dinic * Z) :=
  rassert (s <? dn_n d)%nat ;;
  rassert (t <? dn_n d)%nat ;;
  x ← rloop (S (S (dn_n d))) (flow_step T s t) (0, d);
  Ok (x.2, x.1).

(** Calls by a user. *)
Inductive dn_op := DnEdge (u v : nat) (c : Z) | DnFlow (s t : nat).
Definition dn_step (T : ity) (d : dinic) (o : dn_op) : res (dinic * option Z) :=
  match o with
  | DnEdge u v c => d ← dn_add_edge d u v c; Ok (d, None)
  | DnFlow s t => x ← dn_max_flow T d s t; Ok (x.1, Some x.2)
  end.
Close Scope Z_scope.
