(** The algorithms of std::collections::VecDeque (alloc/src/collections/vec_deque/mod.rs of the Rust standard library), which
    max_flow.rs and aho_corasick.rs use as a queue.  Not code of /repo; written from the published source: a slot that is
    uninitialised or moved out is None, reading such a slot or leaving the buffer panics here (Ok shows that it does not happen).
    Capacities are unbounded.  rg_cost counts slots copied by reallocation and by handle_capacity_increase (not in the source). *)
From Verif Require Import Prelude IntModel UtilModel DinicModel AhoModel.

Record ring (A : Type) := Ring { rg_buf : list (option A); rg_head : nat; rg_len : nat; rg_cost : nat }.
Arguments Ring {A}. Arguments rg_buf {A}. Arguments rg_head {A}. Arguments rg_len {A}. Arguments rg_cost {A}.

Section Ring.
  Context {A : Type}.
  Definition rg_cap (r : ring A) : nat := length (rg_buf r).
  (** VecDeque::new *)
  Definition ring_new : ring A := Ring [] 0 0 0.
  (** wrap_index, to_physical_idx *)
  Definition wrap_index (i cap : nat) : nat := if cap <=? i then i - cap else i.
  Definition phys (r : ring A) (i : nat) : nat := wrap_index (rg_head r + i) (rg_cap r).
  (** copy(src, dst, k): k slots are moved *)
  Definition buf_move (buf : list (option A)) (src dst k : nat) : res (list (option A)) :=
    rassert (src + k <=? length buf) ;;
    rassert (dst + k <=? length buf) ;;
    let items := firstn k (skipn src buf) in
    let buf := firstn src buf ++ replicate k None ++ skipn (src + k) buf in
    Ok (firstn dst buf ++ items ++ skipn (dst + k) buf).
  (** RawVec::grow_one: at least double, at least 4 *)
  Definition new_cap (cap : nat) : nat := Nat.max 4 (Nat.max (2 * cap) (S cap)).
  (** grow, with handle_capacity_increase *)
  Definition ring_grow (r : ring A) : res (ring A) :=
    let old := rg_cap r in
    let cap := new_cap old in
    let buf := rg_buf r ++ replicate (cap - old) None in
    let cost := rg_cost r + old in
    spare ← nsub old (rg_len r);
    if rg_head r <=? spare then Ok (Ring buf (rg_head r) (rg_len r) cost)
    else
      head_len ← nsub old (rg_head r);
      tail_len ← nsub (rg_len r) head_len;
      if (tail_len <? head_len) && (tail_len <=? cap - old) then
        rassert (tail_len <=? old) ;; (* copy_nonoverlapping *)
        buf ← buf_move buf 0 old tail_len;
        Ok (Ring buf (rg_head r) (rg_len r) (cost + tail_len))
      else
        new_head ← nsub cap head_len;
        buf ← buf_move buf (rg_head r) new_head head_len;
        Ok (Ring buf new_head (rg_len r) (cost + head_len)).
  (** push_back *)
  Definition push_back (r : ring A) (x : A) : res (ring A) :=
    r ← (if rg_len r =? rg_cap r then ring_grow r else Ok r);
    buf ← vset (rg_buf r) (phys r (rg_len r)) (Some x);
    Ok (Ring buf (rg_head r) (S (rg_len r)) (rg_cost r)).
  (** pop_front: the slot is moved out *)
  Definition pop_front (r : ring A) : res (option A * ring A) :=
    if rg_len r =? 0 then Ok (None, r)
    else
      o ← vget (rg_buf r) (rg_head r);
      x ← runwrap o;
      buf ← vset (rg_buf r) (rg_head r) None;
      Ok (Some x, Ring buf (phys r 1) (rg_len r - 1) (rg_cost r)).

  (** A client: pushes and pops in any order; the answers of the pops. *)
  Inductive q_op := QPush (x : A) | QPop.
  Definition ring_step (o : q_op) (st : ring A * list (option A)) : res (ring A * list (option A)) :=
    match o with
    | QPush x => r ← push_back st.1 x; Ok (r, st.2)
    | QPop => p ← pop_front st.1; Ok (p.2, st.2 ++ [p.1])
    end.
  Definition ring_run (ops : list q_op) : res (ring A * list (option A)) := rfor ops ring_step (ring_new, []).
End Ring.
Arguments q_op : clear implicits.

(** max_flow.rs:28-46  bfs over the ring buffer *)
Open Scope Z_scope.
Fixpoint bfs_scan_ring (e : list dedge) (u t : nat) (es : list nat) (h : list Z) (q : ring nat) : res (bool * (list Z * ring nat)) :=
  match es with
  | [] => Ok (false, (h, q))
  | i :: es =>
      x ← vget e i;
      let '(v, c) := x in
      if 0 <? c then
        hv ← vget h v;
        if hv =? -1 then
          hu ← vget h u;
          d ← iadd i32 hu 1;
          h ← vset h v d;
          if (v =? t)%nat then Ok (true, (h, q)) else q ← push_back q v; bfs_scan_ring e u t es h q
        else bfs_scan_ring e u t es h q
      else bfs_scan_ring e u t es h q
  end.
Definition bfs_step_ring (e : list dedge) (g : list (list nat)) (t : nat) (s : list Z * ring nat) : res (list Z * ring nat + bool * list Z) :=
  let '(h, q) := s in
  p ← pop_front q;
  match p with
  | (None, _) => Ok (inr (false, h))
  | (Some u, q) =>
      es ← vget g u;
      x ← bfs_scan_ring e u t es h q;
      if x.1 : bool then Ok (inr (true, x.2.1)) else Ok (inl x.2)
  end.
Definition bfs_ring (e : list dedge) (g : list (list nat)) (h : list Z) (s t : nat) : res (bool * list Z) :=
  h ← vset (replicate (length h) (-1)) s 0;
  q ← push_back ring_new s;
  rloop (S (S (length g))) (bfs_step_ring e g t) (h, q).
(** max_flow.rs:79-88  get_max_flow *)
Definition flow_step_ring (T : ity) (s t : nat) (x : Z * dinic) : res (Z * dinic + Z * dinic) :=
  let '(ans, d) := x in
  y ← bfs_ring (dn_e d) (dn_g d) (dn_h d) s t;
  let '(b, h) := y in
  if b : bool then
    let cur := replicate (length (dn_cur d)) 0%nat in
    z ← fdfs (S (S (length (dn_g d)))) T (dn_g d) h t s (it_max T) (dn_e d) cur;
    let '(a, (e, cur)) := z in
    ans ← iadd T ans a;
    Ok (inl (ans, DN (dn_n d) e (dn_g d) cur h))
  else Ok (inr (ans, DN (dn_n d) (dn_e d) (dn_g d) (dn_cur d) h)).
Definition max_flow_ring (T : ity) (d : dinic) (s t : nat) : res (dinic * Z) :=
  rassert (s <? dn_n d)%nat ;;
  rassert (t <? dn_n d)%nat ;;
  x ← rloop (S (S (dn_n d))) (flow_step_ring T s t) (0, d);
  Ok (x.2, x.1).
Close Scope Z_scope.

(** aho_corasick.rs:58-82  build over the ring buffer *)
Section Aho.
  Context (off N : nat).
  Definition build_edge_ring (u i : nat) (st : list node * ring nat) : res (list node * ring nat) :=
    let '(nodes, q) := st in
    x ← vget nodes u;
    b ← vget nodes (nd_back x);
    fail ← vget (nd_next b) i;
    v ← vget (nd_next x) i;
    if v =? 0 then
      l ← vset (nd_next x) i fail;
      nodes ← vset nodes u (with_next x l);
      Ok (nodes, q)
    else
      y ← vget nodes v;
      nodes ← vset nodes v (Node fail (nd_end y) (nd_nmatches y) (nd_output y) (nd_next y));
      z ← vget nodes fail;
      y ← vget nodes v;
      let o := match nd_end z with Some _ => Some fail | None => nd_output z end in
      nodes ← vset nodes v (Node (nd_back y) (nd_end y) (nd_nmatches y) o (nd_next y));
      q ← push_back q v;
      Ok (nodes, q).
  Definition build_step_ring (st : list node * ring nat) : res ((list node * ring nat) + list node) :=
    let '(nodes, q) := st in
    p ← pop_front q;
    match p with
    | (None, _) => Ok (inr nodes)
    | (Some u, q) => st ← rfor (range 0 N) (build_edge_ring u) (nodes, q); Ok (inl st)
    end.
  Definition build_fuel_ring (fuel : nat) (a : aho) : res aho :=
    q ← rfor (range 0 N) (fun i q =>
          x ← vget (ah_nodes a) 0;
          v ← vget (nd_next x) i;
          if negb (v =? 0) then push_back q v else Ok q) ring_new;
    nodes ← rloop fuel build_step_ring (ah_nodes a, q);
    Ok (Aho (ah_n a) nodes).
End Aho.
