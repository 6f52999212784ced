(** A client: lowest common ancestors by a SparseTable over the order of BinaryLifting's tin.  Not code of /repo; it reads the public
    fields binary_lifting.rs:5-7 pa, dep, tin and calls SparseTable::from and get (sparse_table.rs:18-40). *)
From Verif Require Import Prelude LiftModel SparseModel.

(** |x, y| if x.0 <= y.0 { x } else { y } *)
Definition shallower (x y : nat * nat) : nat * nat := if x.1 <=? y.1 then x else y.
(** let mut a = vec![(0, 0); n]; for v in 0..n { a[b.tin[v]] = (b.dep[v], v); }  SparseTable::from(a, (0, 0), shallower) *)
Definition rmq_from (b : bl) : res (list (list (nat * nat))) :=
  let n := length (bl_tin b) in
  a ← rfor (range 0 n) (fun v a => t ← vget (bl_tin b) v; d ← vget (bl_dep b) v; vset a t (d, v)) (replicate n (0, 0));
  sp_from a (0, 0) shallower.
(** if u == v { return u; } the parent of the shallowest vertex after the first of the two, up to the second *)
Definition rmq_lca (b : bl) (data : list (list (nat * nat))) (u v : nat) : res nat :=
  if u =? v then Ok u else
  x ← vget (bl_tin b) u;
  y ← vget (bl_tin b) v;
  w ← sp_get shallower data (Nat.min x y + 1) (Nat.max x y + 1);
  pa_get (bl_pa b) w.2 0.
