(** Model of src/math/internal_math.rs. *)
From Verif Require Import Prelude IntModel.
Open Scope Z_scope.

(** internal_math.rs:11-17  safe_mod *)
Definition safe_mod (x m : Z) : res Z :=
  x ← irem i64 x m;
  if x <? 0 then iadd i64 x m else Ok x.

(** internal_math.rs:22-25  struct Barrett *)
Record barrett := Barrett { br_m : Z; br_im : Z }.

(** internal_math.rs:33-38  Barrett::new; `-1i64 as u64` is u64::MAX *)
Definition barrett_new (m : Z) : res barrett :=
  q ← idiv u64 (wrap u64 (-1)) m;
  Ok (Barrett m (wrap u64 (q + 1))).

(** internal_math.rs:42-44  umod *)
Definition barrett_umod (b : barrett) : Z := br_m b.

(** internal_math.rs:65-84  mul_mod.  `z *= b` is a checked u64 product, the u128 product is checked too;
    the shift and the casts truncate, wrapping_* wrap. *)
Definition mul_mod (a b m im : Z) : res Z :=
  z ← imul u64 a b;
  p ← imul u128 z im;
  let x := wrap u64 (Z.shiftr p 64) in
  let v := wrap u32 (wrap u64 (z - wrap u64 (x * m))) in
  if m <=? v then Ok (wrap u32 (v + m)) else Ok v.

(** internal_math.rs:53-55  Barrett::mul *)
Definition barrett_mul (br : barrett) (a b : Z) : res Z := mul_mod a b (br_m br) (br_im br).

(** internal_math.rs:101-107  one test of `while n != 0` with its body; state (n, r, y) *)
Definition pow_mod_step (m : Z) (s : Z * Z * Z) : res ((Z * Z * Z) + Z) :=
  let '(n, r, y) := s in
  if n =? 0 then Ok (inr r)
  else
    r ← (if 0 <? Z.land n 1 then p ← imul u64 r y; irem u64 p m else Ok r);
    p ← imul u64 y y;
    y ← irem u64 p m;
    Ok (inl (Z.shiftr n 1, r, y)).

(** internal_math.rs:94-109  pow_mod.  An i64 n >= 0 has at most 63 bits; a negative n never becomes 0 by `>>= 1`. *)
Definition pow_mod (x n m : Z) : res Z :=
  if m =? 1 then Ok 0
  else
    let _m := wrap u32 m in
    y ← safe_mod x m;
    r ← rloop 65 (pow_mod_step _m) (n, 1, wrap u64 y);
    Ok (wrap i64 r).

(** internal_math.rs:127-129 (also 208-210)  `while d % 2 == 0 { d /= 2 }` in T *)
Definition strip_twos (T : ity) (d : Z) : res Z :=
  rloop 65 (fun d => r ← irem T d 2; if r =? 0 then d ← idiv T d 2; Ok (inl d) else Ok (inr d)) d.

(** internal_math.rs:133-136  one test of the while loop in is_prime with its body; state (t, y) *)
Definition sq_step (n : Z) (s : Z * Z) : res ((Z * Z) + (Z * Z)) :=
  let '(t, y) := s in
  if negb (t =? n - 1) && negb (y =? 1) && negb (y =? n - 1) then
    p ← imul i64 y y;
    y ← irem i64 p n;
    Ok (inl (wrap i64 (Z.shiftl t 1), y))
  else Ok (inr (t, y)).

(** internal_math.rs:131-139  loop body for one base a: true if the base is passed, false for `return false` *)
Definition passes_base (n d a : Z) : res bool :=
  y ← pow_mod a d (wrap i32 n);
  '(t, y) ← rloop 65 (sq_step n) (d, y);
  r ← irem i64 t 2;
  Ok (negb (negb (y =? n - 1) && (r =? 0))).

(** internal_math.rs:118-142  is_prime; [n] is already widened to i64 *)
Definition is_prime (n : Z) : res bool :=
  if n <=? 1 then Ok false
  else if (n =? 2) || (n =? 7) || (n =? 61) then Ok true
  else
    r ← irem i64 n 2;
    if r =? 0 then Ok false
    else
      d ← isub i64 n 1;
      d ← strip_twos i64 d;
      rfor [2; 7; 61] (fun a (ok : bool) => if ok then passes_base n d a else Ok false) true.

(** internal_math.rs:169-181  one test of the while loop in inv_gcd with its body; state (s, t, m0, m1) *)
Definition inv_gcd_step (st : Z * Z * Z * Z) : res ((Z * Z * Z * Z) + (Z * Z)) :=
  let '(s, t, m0, m1) := st in
  if t =? 0 then Ok (inr (s, m0))
  else
    u ← idiv i64 s t;
    p ← imul i64 t u;
    s ← isub i64 s p;
    q ← imul i64 m1 u;
    m0 ← isub i64 m0 q;
    Ok (inl (t, s, m1, m0)).

(** internal_math.rs:154-188  inv_gcd *)
Definition inv_gcd (a b : Z) : res (Z * Z) :=
  a ← safe_mod a b;
  if a =? 0 then Ok (b, 0)
  else
    '(s, m0) ← rloop 200 inv_gcd_step (b, a, 0, 1);
    if m0 <? 0 then
      q ← idiv i64 b s;
      m0 ← iadd i64 m0 q;
      Ok (s, m0)
    else Ok (s, m0).

(** internal_math.rs:218-220  `while x % i == 0 { x /= i }` (i32) *)
Definition strip_factor (x i : Z) : res Z :=
  rloop 33 (fun x => r ← irem i32 x i; if r =? 0 then x ← idiv i32 x i; Ok (inl x) else Ok (inr x)) x.

(** internal_math.rs:211-222  one iteration of `for i in (3..i32::MAX).step_by(2)`; state (i, x, cnt, divs) *)
Definition factor_step (s : Z * Z * nat * list Z) : res ((Z * Z * nat * list Z) + (Z * nat * list Z)) :=
  let '(i, x, cnt, divs) := s in
  if negb (i <? it_max i32) then Ok (inr (x, cnt, divs))
  else
    sq ← imul i64 i i;
    if x <? sq then Ok (inr (x, cnt, divs))
    else
      r ← irem i32 x i;
      if r =? 0 then
        divs ← vset divs cnt i;
        x ← strip_factor x i;
        Ok (inl (i + 2, x, (cnt + 1)%nat, divs))
      else Ok (inl (i + 2, x, cnt, divs)).

(** internal_math.rs:204-226  the array divs and the number cnt of its used entries *)
Definition prime_divs (m : Z) : res (list Z * nat) :=
  divs ← vset (replicate 20 0) 0 2;
  m1 ← isub i32 m 1;
  x ← idiv i32 m1 2;
  x ← strip_twos i32 x;
  '(x, cnt, divs) ← rloop (Z.to_nat 40000) factor_step (3, x, 1%nat, divs);
  if 1 <? x then
    divs ← vset divs cnt x;
    Ok (divs, (cnt + 1)%nat)
  else Ok (divs, cnt).

(** internal_math.rs:229  `(0..cnt).all(|i| pow_mod(g, ((m - 1) / divs[i]) as i64, m) != 1)` *)
Definition root_test (m : Z) (divs : list Z) (cnt : nat) (g : Z) : res bool :=
  rfor (range 0 cnt) (fun i (ok : bool) =>
    if ok then
      q ← vget divs i;
      m1 ← isub i32 m 1;
      k ← idiv i32 m1 q;
      y ← pow_mod g k m;
      Ok (negb (y =? 1))
    else Ok false) true.

(** internal_math.rs:194-234  primitive_root.  g is i64; the loop is given m iterations. *)
Definition primitive_root (m : Z) : res Z :=
  if m =? 2 then Ok 1
  else if m =? 167772161 then Ok 3
  else if m =? 469762049 then Ok 3
  else if m =? 754974721 then Ok 11
  else if m =? 998244353 then Ok 3
  else
    '(divs, cnt) ← prime_divs m;
    rloop (Z.to_nat m) (fun g =>
      ok ← root_test m divs cnt g;
      if (ok : bool) then Ok (inr (wrap i32 g)) else g ← iadd i64 g 1; Ok (inl g)) 2.
Close Scope Z_scope.
