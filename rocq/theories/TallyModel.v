(** Textbook clients of FenwickTree and Segtree.  Not code of /repo. *)
From Verif Require Import Prelude FenwickModel SegtreeModel.

(** A multiset of numbers below n in a FenwickTree<i64> t of length n:  t.add(x, 1);  t.add(x, -1);  t.pref(x);
    t.partition_point(|c| c <= k) *)
Inductive tally_op := TInsert (x : nat) | TRemove (x : nat) | TRank (x : nat) | TKth (k : nat).
Inductive tally_out := TUnit | TCount (c : Z) | TIndex (i : nat).
Definition tally_step (t : fenwick Z) (o : tally_op) : res (fenwick Z * tally_out) :=
  match o with
  | TInsert x => t ← fw_add Z.add t x 1%Z; Ok (t, TUnit)
  | TRemove x => t ← fw_add Z.add t x (-1)%Z; Ok (t, TUnit)
  | TRank x => c ← fw_pref 0%Z Z.add t x; Ok (t, TCount c)
  | TKth k => i ← fw_partition_point 0%Z Z.add t (fun c => (c <=? Z.of_nat k)%Z); Ok (t, TIndex i)
  end.

(** let mut t = FenwickTree::new(n); let mut ans = 0;
    for (i, &x) in a.iter().enumerate() { ans += i - t.pref(x + 1); t.add(x, 1); } *)
Definition count_inversions (n : nat) (a : list nat) : res Z :=
  '(_, _, ans) ← rfor a (fun x '(t, i, ans) =>
    c ← fw_pref 0%Z Z.add t (x + 1); t ← fw_add Z.add t x 1%Z; Ok (t, (i + 1)%Z, (ans + (i - c))%Z)) (fw_new 0%Z n, 0%Z, 0%Z);
  Ok ans.

(** let mut t = Segtree::new(n);  // maximum, identity 0
    for &x in a { let b = t.prod(0..x); let c = t.get(x); t.set(x, max(c, b + 1)); }  t.all_prod() *)
Definition lis (n : nat) (a : list nat) : res nat :=
  t ← st_new 0 Nat.max n;
  t ← rfor a (fun x t => b ← st_prod 0 Nat.max t 0 x; c ← st_get t x; st_set Nat.max t x (Nat.max c (b + 1))) t;
  st_all_prod t.
