(** src/graph/max_flow.rs with panics that are caught: the code of DinicModel.v, writing to the memory step by step. *)
From Verif Require Import Prelude Unwind IntModel DinicModel.
Open Scope Z_scope.

(** Assignments to the fields. *)
Definition dnu_set_e (f : list dedge -> res (list dedge)) : uw dinic unit :=
  uwrite (fun d => e ← f (dn_e d); Ok (DN (dn_n d) e (dn_g d) (dn_cur d) (dn_h d))).
Definition dnu_set_g (f : list (list nat) -> res (list (list nat))) : uw dinic unit :=
  uwrite (fun d => g ← f (dn_g d); Ok (DN (dn_n d) (dn_e d) g (dn_cur d) (dn_h d))).
Definition dnu_set_cur (f : list nat -> res (list nat)) : uw dinic unit :=
  uwrite (fun d => cur ← f (dn_cur d); Ok (DN (dn_n d) (dn_e d) (dn_g d) cur (dn_h d))).
Definition dnu_set_h (f : list Z -> res (list Z)) : uw dinic unit :=
  uwrite (fun d => h ← f (dn_h d); Ok (DN (dn_n d) (dn_e d) (dn_g d) (dn_cur d) h)).

(** max_flow.rs:34-43  the for loop of bfs over the edges of u; the queue q is local *)
Fixpoint dnu_bfs_scan (u t : nat) (es : list nat) (q : list nat) : uw dinic (bool * list nat) :=
  match es with
  | [] => uret (false, q)
  | i :: es =>
      x <~ uread (fun d => vget (dn_e d) i) ;~
      let '(v, c) := x in
      if 0 <? c then
        hv <~ uread (fun d => vget (dn_h d) v) ;~
        if hv =? -1 then
          k <~ uread (fun d => hu ← vget (dn_h d) u; iadd i32 hu 1) ;~
          dnu_set_h (fun h => vset h v k) ;;~
          if (v =? t)%nat then uret (true, q) else dnu_bfs_scan u t es (q ++ [v])
        else dnu_bfs_scan u t es q
      else dnu_bfs_scan u t es q
  end.

(** max_flow.rs:33-45  one turn of `while let Some(u) = q.pop_front()` *)
Definition dnu_bfs_step (t : nat) (q : list nat) : uw dinic (list nat + bool) :=
  match q with
  | [] => uret (inr false)
  | u :: q =>
      es <~ uread (fun d => vget (dn_g d) u) ;~
      x <~ dnu_bfs_scan u t es q ;~
      uret (if x.1 : bool then inr true else inl x.2)
  end.

(** max_flow.rs:28-46  bfs *)
Definition dnu_bfs (s t : nat) : uw dinic bool :=
  dnu_set_h (fun h => Ok (replicate (length h) (-1))) ;;~
  dnu_set_h (fun h => vset h s 0) ;;~
  k <~ uread (fun d => Ok (length (dn_g d))) ;~
  uloop (S (S k)) (dnu_bfs_step t) [s].

(** max_flow.rs:54-68  one turn of the while loop of dfs; r and i are local *)
Definition dnu_dfs_step (T : ity) (rec : nat -> Z -> uw dinic Z) (u : nat) (s : Z * nat) : uw dinic (Z * nat + Z) :=
  let '(r, i) := s in
  js <~ uread (fun d => vget (dn_g d) u) ;~
  if (i <? length js)%nat then
    j <~ uread (fun _ => vget js i) ;~
    x <~ uread (fun d => vget (dn_e d) j) ;~
    let '(v, c) := x in
    b <~ uread (fun d => if 0 <? c then hv ← vget (dn_h d) v; hu ← vget (dn_h d) u; k ← iadd i32 hu 1; Ok (hv =? k) else Ok false) ;~
    if b : bool then
      a <~ rec v (Z.min r c) ;~
      dnu_set_e (fun e => ej ← vget e j; c' ← isub T ej.2 a; vset e j (ej.1, c')) ;;~
      dnu_set_e (fun e => ek ← vget e (Nat.lxor j 1); c' ← iadd T ek.2 a; vset e (Nat.lxor j 1) (ek.1, c')) ;;~
      r <~ uread (fun _ => isub T r a) ;~
      if r =? 0 then uret (inr r)
      else dnu_set_cur (fun cur => vset cur u (i + 1)%nat) ;;~ uret (inl (r, (i + 1)%nat))
    else dnu_set_cur (fun cur => vset cur u (i + 1)%nat) ;;~ uret (inl (r, (i + 1)%nat))
  else uret (inr r).

(** max_flow.rs:48-70  dfs *)
Fixpoint dnu_dfs (fuel : nat) (T : ity) (t u : nat) (f : Z) : uw dinic Z :=
  match fuel with
  | O => fun _ => Diverge
  | S fuel =>
      if (u =? t)%nat then uret f else
      i <~ uread (fun d => vget (dn_cur d) u) ;~
      js <~ uread (fun d => vget (dn_g d) u) ;~
      r <~ uloop (S (length js)) (dnu_dfs_step T (dnu_dfs fuel T t) u) (f, i) ;~
      uread (fun _ => isub T f r)
  end.

(** max_flow.rs:72-77  add_edge *)
Definition dnu_add_edge (u v : nat) (c : Z) : uw dinic unit :=
  k <~ uread (fun d => Ok (length (dn_e d))) ;~
  dnu_set_g (fun g => gu ← vget g u; vset g u (gu ++ [k])) ;;~
  dnu_set_e (fun e => Ok (e ++ [(v, c)])) ;;~
  k <~ uread (fun d => Ok (length (dn_e d))) ;~
  dnu_set_g (fun g => gv ← vget g v; vset g v (gv ++ [k])) ;;~
  dnu_set_e (fun e => Ok (e ++ [(u, 0)])).

(** max_flow.rs:83-86  one turn of `while self.bfs(s, t)`; ans is local *)
Definition dnu_flow_step (T : ity) (s t : nat) (ans : Z) : uw dinic (Z + Z) :=
  b <~ dnu_bfs s t ;~
  if b : bool then
    dnu_set_cur (fun cur => Ok (replicate (length cur) 0%nat)) ;;~
    k <~ uread (fun d => Ok (length (dn_g d))) ;~
    a <~ dnu_dfs (S (S k)) T t s (it_max T) ;~
    ans <~ uread (fun _ => iadd T ans a) ;~
    uret (inl ans)
  else uret (inr ans).

(** max_flow.rs:79-88  get_max_flow, followed for at most k turns of its loop *)
Definition dnu_max_flow_for (k : nat) (T : ity) (s t : nat) : uw dinic Z :=
  uread (fun d => rassert (s <? dn_n d)%nat) ;;~
  uread (fun d => rassert (t <? dn_n d)%nat) ;;~
  uloop k (dnu_flow_step T s t) 0.
(** max_flow.rs:79-88  get_max_flow; on a network without half edges n + 2 turns are enough *)
Definition dnu_max_flow (T : ity) (s t : nat) : uw dinic Z :=
  k <~ uread (fun d => Ok (S (S (dn_n d)))) ;~ dnu_max_flow_for k T s t.

(** Calls by a user. *)
Definition dnu_step (T : ity) (o : dn_op) : uw dinic (option Z) :=
  match o with
  | DnEdge u v c => dnu_add_edge u v c ;;~ uret None
  | DnFlow s t => r <~ dnu_max_flow T s t ;~ uret (Some r)
  end.
Definition dnu_step_for (k : nat) (T : ity) (o : dn_op) : uw dinic (option Z) :=
  match o with
  | DnEdge u v c => dnu_add_edge u v c ;;~ uret None
  | DnFlow s t => r <~ dnu_max_flow_for k T s t ;~ uret (Some r)
  end.
Close Scope Z_scope.
