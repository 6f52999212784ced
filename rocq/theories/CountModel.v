(** Client code: counting with the tables of Factorial.  Not code of /repo; it calls the modelled functions of factorial.rs and modint.rs.
    The sums of usize below are below 2^64 where the theorems speak of values; they are sums of nat here. *)
From Verif Require Import Prelude IntModel IMathModel ModIntModel FactorialModel.

(** f.choose(n + k - 1, k); the subtraction panics at 0 *)
Definition stars (c : modctx) (f : factorial) (n k : nat) : res Z := rassert (1 <=? n + k) ;; choose c f (n + k - 1) k.
(** f.choose(2 * n, n) / (n + 1) *)
Definition catalan (c : modctx) (f : factorial) (n : nat) : res Z :=
  a ← choose c f (2 * n) n;
  d ← mi_new (mc_m c) usize (Z.of_nat (n + 1));
  mi_div c a d.
(** let mut s = 0; let mut r = ModInt::from(1); for &k in ks { s += k; r *= f.choose(s, k) } *)
Definition multinomial (c : modctx) (f : factorial) (ks : list nat) : res Z :=
  one ← mi_new (mc_m c) i32 1;
  x ← rfor ks (fun k x => a ← choose c f (x.1 + k) k; r ← mc_mul c x.2 a; Ok (x.1 + k, r)) (0, one);
  Ok x.2.
