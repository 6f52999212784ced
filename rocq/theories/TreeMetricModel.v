(** Client code over the public fields and methods of BinaryLifting (binary_lifting.rs).  Not code of /repo. *)
From Verif Require Import Prelude LiftModel.

(** x on the way from u to v: dis(u, x) + dis(x, v) == dis(u, v) *)
Definition on_path (b : bl) (u v x : nat) : res bool :=
  p ← bl_dis b u x;
  q ← bl_dis b x v;
  d ← bl_dis b u v;
  Ok (p + q =? d).
(** lca(u, v) ^ lca(v, w) ^ lca(u, w) *)
Definition median (b : bl) (u v w : nat) : res nat :=
  x ← bl_lca b u v;
  y ← bl_lca b v w;
  z ← bl_lca b u w;
  Ok (Nat.lxor (Nat.lxor x y) z).
(** the first of the vertices farthest from u, and its distance *)
Definition farthest (b : bl) (n u : nat) : res (nat * nat) :=
  rfor (range 0 n) (fun v s =>
    d ← bl_dis b u v;
    Ok (if s.2 <? d then (v, d) else s)) (u, 0).
(** two sweeps *)
Definition diameter (b : bl) (n : nat) : res (nat * nat * nat) :=
  s ← farthest b n 0;
  t ← farthest b n s.1;
  Ok (s.1, t.1, t.2).
(** k steps towards the root *)
Definition jump (b : bl) (v k : nat) : res nat :=
  rfor (range 0 (bl_level b)) (fun i v => if Nat.testbit k i then pa_get (bl_pa b) v i else Ok v) v.
(** the vertex k steps from u on the way to v *)
Definition path_kth (b : bl) (u v k : nat) : res nat :=
  l ← bl_lca b u v;
  du ← vget (bl_dep b) u;
  dv ← vget (bl_dep b) v;
  dl ← vget (bl_dep b) l;
  if k <=? du - dl then jump b u k else jump b v (du + dv - 2 * dl - k).
