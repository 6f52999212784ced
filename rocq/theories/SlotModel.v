(** The ring buffer of the queues of bfs (max_flow.rs) and build (aho_corasick.rs) with at most c slots: growing beyond panics.
    The functions of RingModel.v with this limit; not code of /repo, which has no such limit. *)
From Verif Require Import Prelude IntModel DinicModel AhoModel RingModel.

Definition push_slot (c : nat) (q : ring nat) (v : nat) : res (ring nat) := q ← push_back q v; rassert (rg_cap q <=? c) ;; Ok q.

(** max_flow.rs:28-46  bfs *)
Open Scope Z_scope.
Fixpoint bfs_scan_slot (c : nat) (e : list dedge) (u t : nat) (es : list nat) (h : list Z) (q : ring nat) : res (bool * (list Z * ring nat)) :=
  match es with
  | [] => Ok (false, (h, q))
  | i :: es =>
      x ← vget e i;
      let '(v, cp) := x in
      if 0 <? cp then
        hv ← vget h v;
        if hv =? -1 then
          hu ← vget h u;
          d ← iadd i32 hu 1;
          h ← vset h v d;
          if (v =? t)%nat then Ok (true, (h, q)) else q ← push_slot c q v; bfs_scan_slot c e u t es h q
        else bfs_scan_slot c e u t es h q
      else bfs_scan_slot c e u t es h q
  end.
Definition bfs_step_slot (c : nat) (e : list dedge) (g : list (list nat)) (t : nat) (s : list Z * ring nat) : res (list Z * ring nat + bool * list Z) :=
  let '(h, q) := s in
  p ← pop_front q;
  match p with
  | (None, _) => Ok (inr (false, h))
  | (Some u, q) =>
      es ← vget g u;
      x ← bfs_scan_slot c e u t es h q;
      if x.1 : bool then Ok (inr (true, x.2.1)) else Ok (inl x.2)
  end.
Definition bfs_slot (c : nat) (e : list dedge) (g : list (list nat)) (h : list Z) (s t : nat) : res (bool * list Z) :=
  h ← vset (replicate (length h) (-1)) s 0;
  q ← push_slot c ring_new s;
  rloop (S (S (length g))) (bfs_step_slot c e g t) (h, q).
(** max_flow.rs:79-88  get_max_flow *)
Definition flow_step_slot (c : nat) (T : ity) (s t : nat) (x : Z * dinic) : res (Z * dinic + Z * dinic) :=
  let '(ans, d) := x in
  y ← bfs_slot c (dn_e d) (dn_g d) (dn_h d) s t;
  let '(b, h) := y in
  if b : bool then
    let cur := replicate (length (dn_cur d)) 0%nat in
    z ← fdfs (S (S (length (dn_g d)))) T (dn_g d) h t s (it_max T) (dn_e d) cur;
    let '(a, (e, cur)) := z in
    ans ← iadd T ans a;
    Ok (inl (ans, DN (dn_n d) e (dn_g d) cur h))
  else Ok (inr (ans, DN (dn_n d) (dn_e d) (dn_g d) (dn_cur d) h)).
Definition max_flow_slot (c : nat) (T : ity) (d : dinic) (s t : nat) : res (dinic * Z) :=
  rassert (s <? dn_n d)%nat ;;
  rassert (t <? dn_n d)%nat ;;
  x ← rloop (S (S (dn_n d))) (flow_step_slot c T s t) (0, d);
  Ok (x.2, x.1).
Close Scope Z_scope.

(** aho_corasick.rs:58-82  build *)
Section Aho.
  Context (N c : nat).
  Definition build_edge_slot (u i : nat) (st : list node * ring nat) : res (list node * ring nat) :=
    let '(nodes, q) := st in
    x ← vget nodes u;
    b ← vget nodes (nd_back x);
    fail ← vget (nd_next b) i;
    v ← vget (nd_next x) i;
    if v =? 0 then
      l ← vset (nd_next x) i fail;
      nodes ← vset nodes u (with_next x l);
      Ok (nodes, q)
    else
      y ← vget nodes v;
      nodes ← vset nodes v (Node fail (nd_end y) (nd_nmatches y) (nd_output y) (nd_next y));
      z ← vget nodes fail;
      y ← vget nodes v;
      let o := match nd_end z with Some _ => Some fail | None => nd_output z end in
      nodes ← vset nodes v (Node (nd_back y) (nd_end y) (nd_nmatches y) o (nd_next y));
      q ← push_slot c q v;
      Ok (nodes, q).
  Definition build_step_slot (st : list node * ring nat) : res ((list node * ring nat) + list node) :=
    let '(nodes, q) := st in
    p ← pop_front q;
    match p with
    | (None, _) => Ok (inr nodes)
    | (Some u, q) => st ← rfor (range 0 N) (build_edge_slot u) (nodes, q); Ok (inl st)
    end.
  Definition build_slot (fuel : nat) (a : aho) : res aho :=
    q ← rfor (range 0 N) (fun i q =>
          x ← vget (ah_nodes a) 0;
          v ← vget (nd_next x) i;
          if negb (v =? 0) then push_slot c q v else Ok q) ring_new;
    nodes ← rloop fuel build_step_slot (ah_nodes a, q);
    Ok (Aho (ah_n a) nodes).
End Aho.
