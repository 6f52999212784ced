(** Client code: inclusion and exclusion with the tables of Factorial.  Not code of /repo; it calls the modelled functions of factorial.rs and modint.rs. *)
From Verif Require Import Prelude IntModel IMathModel ModIntModel FactorialModel.

(** if j % 2 == 0 { r += a } else { r -= a } *)
Definition alternate (c : modctx) (j : nat) (r a : Z) : res Z := if Nat.even j then mi_add (mc_m c) r a else mi_sub (mc_m c) r a.
(** let mut r = ModInt::from(0); for j in 0..=k { let a = f.choose(k, j) * ModInt::from(k - j).pow(n as u64); alternate(j, &mut r, a) } *)
Definition surjections (c : modctx) (f : factorial) (n k : nat) : res Z :=
  zero ← mi_new (mc_m c) i32 0;
  rfor (range_incl 0 k) (fun j r =>
    a ← choose c f k j;
    b ← mi_new (mc_m c) usize (Z.of_nat (k - j));
    b ← mi_pow (mc_mul c) b (Z.of_nat n);
    a ← mc_mul c a b;
    alternate c j r a) zero.
(** let mut r = ModInt::from(0); for j in 0..=n { alternate(j, &mut r, f.perm(n, n - j)) } *)
Definition derangements (c : modctx) (f : factorial) (n : nat) : res Z :=
  zero ← mi_new (mc_m c) i32 0;
  rfor (range_incl 0 n) (fun j r => a ← perm c f n (n - j); alternate c j r a) zero.
