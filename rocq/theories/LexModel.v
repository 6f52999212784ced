(** Client code: numbering permutations with FenwickTree (of integers that do not overflow) and Factorial.  Not code of /repo. *)
From Verif Require Import Prelude UtilModel IntModel IMathModel ModIntModel FactorialModel FenwickModel.

(** let mut t = FenwickTree::new(n); for x in 0..n { t.add(x, 1) } *)
Definition all_ones (n : nat) : res (fenwick Z) := rfor (range 0 n) (fun x t => fw_add Z.add t x 1%Z) (fw_new 0%Z n).
(** for &x in p { out.push(t.pref(x)); t.add(x, -1) } *)
Definition perm_encode (p : list nat) : res (list Z) :=
  t ← all_ones (length p);
  s ← rfor p (fun x s => a ← fw_pref 0%Z Z.add s.1 x; t ← fw_add Z.add s.1 x (-1)%Z; Ok (t, s.2 ++ [a])) (t, []);
  Ok s.2.
(** for &c in code { let x = t.partition_point(|s| s <= c); t.add(x, -1); out.push(x) } *)
Definition perm_decode (code : list nat) : res (list nat) :=
  t ← all_ones (length code);
  s ← rfor code (fun c s => x ← fw_partition_point 0%Z Z.add s.1 (fun q => (q <=? Z.of_nat c)%Z); t ← fw_add Z.add s.1 x (-1)%Z; Ok (t, s.2 ++ [x])) (t, []);
  Ok s.2.
(** let mut k = p.len(); let mut r = ModInt::from(0);
    for &x in p { k -= 1; let a = t.pref(x); t.add(x, -1); r += ModInt::from(a) * f.perm(k, k) } *)
Definition perm_rank (c : modctx) (f : factorial) (p : list nat) : res Z :=
  t ← all_ones (length p);
  zero ← mi_new (mc_m c) i32 0%Z;
  s ← rfor p (fun x s =>
    k ← nsub s.1.2 1;
    a ← fw_pref 0%Z Z.add s.1.1 x;
    t ← fw_add Z.add s.1.1 x (-1)%Z;
    a ← mi_new (mc_m c) i64 a;
    g ← perm c f k k;
    a ← mc_mul c a g;
    r ← mi_add (mc_m c) s.2 a;
    Ok (t, k, r)) (t, length p, zero);
  Ok s.2.
