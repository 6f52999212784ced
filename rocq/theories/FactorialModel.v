(** Model of src/math/factorial.rs over the StaticModInt model. *)
From Verif Require Import Prelude IntModel IMathModel ModIntModel.
Open Scope Z_scope.

(** factorial.rs:3-6 *)
Record factorial := Factorial { fc_fac : list Z; fc_inv : list Z }.

(** factorial.rs:9-24  new; allocation failure is not modelled *)
Definition factorial_new (c : modctx) (n : nat) : res factorial :=
  _ ← iadd usize (Z.of_nat n) 1;
  z ← mi_new (mc_m c) i32 0;
  let fac := replicate (n + 1) z in
  let inv := replicate (n + 1) z in
  one ← mi_new (mc_m c) i32 1;
  fac ← vset fac 0 one;
  fac ← rfor (range_incl 1 n) (fun i fac =>
    x ← vget fac (i - 1);
    k ← mi_new (mc_m c) usize (Z.of_nat i);
    p ← mc_mul c x k;
    vset fac i p) fac;
  x ← vget fac n;
  y ← mc_inv c x;
  inv ← vset inv n y;
  inv ← rfor (rev (range 0 n)) (fun i inv =>
    x ← vget inv (i + 1);
    k ← mi_new (mc_m c) usize (Z.of_nat (i + 1));
    p ← mc_mul c x k;
    vset inv i p) inv;
  Ok (Factorial fac inv).

(** factorial.rs:26-30  choose *)
Definition choose (c : modctx) (f : factorial) (n k : nat) : res Z :=
  rassert (k <=? n)%nat ;;
  rassert (n <? length (fc_fac f))%nat ;;
  a ← vget (fc_fac f) n;
  b ← vget (fc_inv f) (n - k);
  p ← mc_mul c a b;
  d ← vget (fc_inv f) k;
  mc_mul c p d.

(** factorial.rs:32-36  perm *)
Definition perm (c : modctx) (f : factorial) (n k : nat) : res Z :=
  rassert (k <=? n)%nat ;;
  rassert (n <? length (fc_fac f))%nat ;;
  a ← vget (fc_fac f) n;
  b ← vget (fc_inv f) (n - k);
  mc_mul c a b.
Close Scope Z_scope.
