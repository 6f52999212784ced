(** src/math/number_theory.rs, src/math/internal_math.rs and `pow` of src/math/modint.rs again, counting steps.  The counter is the
    state of Eff.v; what counts as a step is said at each definition. *)
From Verif Require Import Prelude Eff IntModel NumModel IMathModel ModIntModel GraphWorkModel.
Open Scope Z_scope.

(** number_theory.rs:4-8  turn of the loop of gcd: one step per `%` *)
Definition gcd_stepW (T : ity) (s : Z * Z) : eff nat ((Z * Z) + Z) :=
  let '(a, b) := s in
  if b =? 0 then eret (inr a)
  else
    let t := b in
    tick ;;*
    b <* elift (irem T a b) ;*
    eret (inl (t, b)).

(** number_theory.rs:3-10  gcd *)
Definition gcdW (T : ity) (a b : Z) : eff nat Z := eloop (euclid_fuel T) (gcd_stepW T) (a, b).

(** number_theory.rs:12-14  lcm: one step per `%` *)
Definition lcmW (T : ity) (a b : Z) : eff nat Z :=
  p <* elift (imul T a b) ;*
  g <* gcdW T a b ;*
  elift (idiv T p g).

(** number_theory.rs:17-23  ex_gcd: one step per call *)
Fixpoint ex_gcd_recW (T : ity) (fuel : nat) (a b : Z) : eff nat (Z * Z * Z) :=
  match fuel with
  | O => fun _ => Diverge
  | Datatypes.S fuel =>
      tick ;;*
      if b =? 0 then eret (1, 0, a)
      else
        r <* elift (irem T a b) ;*
        '(x, y, g) <* ex_gcd_recW T fuel b r ;*
        q <* elift (idiv T a b) ;*
        p <* elift (imul T q y) ;*
        z <* elift (isub T x p) ;*
        eret (y, z, g)
  end.
Definition ex_gcdW (T : ity) (a b : Z) : eff nat (Z * Z * Z) := ex_gcd_recW T (euclid_fuel T) a b.

(** number_theory.rs:34-44  loop body of ex_crt: one step per call of ex_gcd *)
Definition ex_crt_bodyW (a b m : list Z) (i : nat) (s : option (Z * Z)) : eff nat (option (Z * Z)) :=
  match s with
  | None => eret None
  | Some (x, lcm) =>
      ai <* elift (vget a i) ;*
      a_ <* elift (imul i64 ai lcm) ;*
      bi <* elift (vget b i) ;*
      ai <* elift (vget a i) ;*
      ax <* elift (imul i64 ai x) ;*
      b_ <* elift (isub i64 bi ax) ;*
      m_ <* elift (vget m i) ;*
      '(y, _, g) <* ex_gcdW i64 a_ m_ ;*
      r <* elift (irem i64 b_ g) ;*
      if negb (r =? 0) then eret None
      else
        b_ <* elift (idiv i64 b_ g) ;*
        m_ <* elift (idiv i64 m_ g) ;*
        p <* elift (imul i128 y b_) ;*
        t <* elift (irem i128 p m_) ;*
        d <* elift (imul i64 lcm (wrap i64 t)) ;*
        x <* elift (iadd i64 x d) ;*
        lcm <* elift (imul i64 lcm m_) ;*
        eret (Some (x, lcm))
  end.

(** number_theory.rs:31-47  ex_crt *)
Definition ex_crtW (a b m : list Z) : eff nat (option (Z * Z)) :=
  let n := length a in
  s <* efor (range 0 n) (ex_crt_bodyW a b m) (Some (0, 1)) ;*
  match s with
  | None => eret None
  | Some (x, lcm) =>
      z <* elift (iadd i64 x lcm) ;*
      x <* elift (irem i64 z lcm) ;*
      eret (Some (x, lcm))
  end.

(** internal_math.rs:101-107  turn of the loop of pow_mod: one step per product *)
Definition pow_mod_stepW (m : Z) (s : Z * Z * Z) : eff nat ((Z * Z * Z) + Z) :=
  let '(n, r, y) := s in
  if n =? 0 then eret (inr r)
  else
    r <* (if 0 <? Z.land n 1 then tick ;;* elift (p ← imul u64 r y; irem u64 p m) else eret r) ;*
    tick ;;*
    p <* elift (imul u64 y y) ;*
    y <* elift (irem u64 p m) ;*
    eret (inl (Z.shiftr n 1, r, y)).

(** internal_math.rs:94-109  pow_mod *)
Definition pow_modW (x n m : Z) : eff nat Z :=
  if m =? 1 then eret 0
  else
    let _m := wrap u32 m in
    y <* elift (safe_mod x m) ;*
    r <* eloop 65 (pow_mod_stepW _m) (n, 1, wrap u64 y) ;*
    eret (wrap i64 r).

(** modint.rs:678-684  turn of the loop of pow: one step per product *)
Definition mi_pow_stepW (mul : Z -> Z -> res Z) (s : Z * Z * Z) : eff nat ((Z * Z * Z) + Z) :=
  let '(n, x, r) := s in
  if 0 <? n then
    r <* (if Z.land n 1 =? 1 then tick ;;* elift (mul r x) else eret r) ;*
    tick ;;*
    x <* elift (mul x x) ;*
    eret (inl (Z.shiftr n 1, x, r))
  else eret (inr r).

(** modint.rs:675-686  pow *)
Definition mi_powW (mul : Z -> Z -> res Z) (x n : Z) : eff nat Z := eloop 66 (mi_pow_stepW mul) (n, x, 1).

(** internal_math.rs:127-129 (also 208-210)  one step per turn *)
Definition strip_twosW (T : ity) (d : Z) : eff nat Z :=
  eloop 65 (fun d => r <* elift (irem T d 2) ;* if r =? 0 then tick ;;* d <* elift (idiv T d 2) ;* eret (inl d) else eret (inr d)) d.

(** internal_math.rs:133-136  turn of the while loop in is_prime: one step per product *)
Definition sq_stepW (n : Z) (s : Z * Z) : eff nat ((Z * Z) + (Z * Z)) :=
  let '(t, y) := s in
  if negb (t =? n - 1) && negb (y =? 1) && negb (y =? n - 1) then
    tick ;;*
    p <* elift (imul i64 y y) ;*
    y <* elift (irem i64 p n) ;*
    eret (inl (wrap i64 (Z.shiftl t 1), y))
  else eret (inr (t, y)).

(** internal_math.rs:131-139  loop body for one base a *)
Definition passes_baseW (n d a : Z) : eff nat bool :=
  y <* pow_modW a d (wrap i32 n) ;*
  '(t, y) <* eloop 65 (sq_stepW n) (d, y) ;*
  r <* elift (irem i64 t 2) ;*
  eret (negb (negb (y =? n - 1) && (r =? 0))).

(** internal_math.rs:118-142  is_prime: products and halvings *)
Definition is_primeW (n : Z) : eff nat bool :=
  if n <=? 1 then eret false
  else if (n =? 2) || (n =? 7) || (n =? 61) then eret true
  else
    r <* elift (irem i64 n 2) ;*
    if r =? 0 then eret false
    else
      d <* elift (isub i64 n 1) ;*
      d <* strip_twosW i64 d ;*
      efor [2; 7; 61] (fun a (ok : bool) => if ok then passes_baseW n d a else eret false) true.

(** internal_math.rs:169-181  turn of the while loop in inv_gcd: one step per turn *)
Definition inv_gcd_stepW (st : Z * Z * Z * Z) : eff nat ((Z * Z * Z * Z) + (Z * Z)) :=
  let '(s, t, m0, m1) := st in
  if t =? 0 then eret (inr (s, m0))
  else
    tick ;;*
    u <* elift (idiv i64 s t) ;*
    p <* elift (imul i64 t u) ;*
    s <* elift (isub i64 s p) ;*
    q <* elift (imul i64 m1 u) ;*
    m0 <* elift (isub i64 m0 q) ;*
    eret (inl (t, s, m1, m0)).

(** internal_math.rs:154-188  inv_gcd *)
Definition inv_gcdW (a b : Z) : eff nat (Z * Z) :=
  a <* elift (safe_mod a b) ;*
  if a =? 0 then eret (b, 0)
  else
    '(s, m0) <* eloop 200 inv_gcd_stepW (b, a, 0, 1) ;*
    if m0 <? 0 then
      q <* elift (idiv i64 b s) ;*
      m0 <* elift (iadd i64 m0 q) ;*
      eret (s, m0)
    else eret (s, m0).

(** internal_math.rs:218-220  one step per turn *)
Definition strip_factorW (x i : Z) : eff nat Z :=
  eloop 33 (fun x => r <* elift (irem i32 x i) ;* if r =? 0 then tick ;;* x <* elift (idiv i32 x i) ;* eret (inl x) else eret (inr x)) x.

(** internal_math.rs:211-222  turn of the for loop in primitive_root: one step per turn, besides those of the inner loop *)
Definition factor_stepW (s : Z * Z * nat * list Z) : eff nat ((Z * Z * nat * list Z) + (Z * nat * list Z)) :=
  let '(i, x, cnt, divs) := s in
  if negb (i <? it_max i32) then eret (inr (x, cnt, divs))
  else
    tick ;;*
    sq <* elift (imul i64 i i) ;*
    if x <? sq then eret (inr (x, cnt, divs))
    else
      r <* elift (irem i32 x i) ;*
      if r =? 0 then
        divs <* elift (vset divs cnt i) ;*
        x <* strip_factorW x i ;*
        eret (inl (i + 2, x, (cnt + 1)%nat, divs))
      else eret (inl (i + 2, x, cnt, divs)).

(** internal_math.rs:204-226  the prime divisors *)
Definition prime_divsW (m : Z) : eff nat (list Z * nat) :=
  divs <* elift (vset (replicate 20 0) 0 2) ;*
  m1 <* elift (isub i32 m 1) ;*
  x <* elift (idiv i32 m1 2) ;*
  x <* strip_twosW i32 x ;*
  '(x, cnt, divs) <* eloop (Z.to_nat 40000) factor_stepW (3, x, 1%nat, divs) ;*
  if 1 <? x then
    divs <* elift (vset divs cnt x) ;*
    eret (divs, (cnt + 1)%nat)
  else eret (divs, cnt).

(** internal_math.rs:229  the products of the calls of pow_mod *)
Definition root_testW (m : Z) (divs : list Z) (cnt : nat) (g : Z) : eff nat bool :=
  efor (range 0 cnt) (fun i (ok : bool) =>
    if ok then
      q <* elift (vget divs i) ;*
      m1 <* elift (isub i32 m 1) ;*
      k <* elift (idiv i32 m1 q) ;*
      y <* pow_modW g k m ;*
      eret (negb (y =? 1))
    else eret false) true.

(** internal_math.rs:194-234  primitive_root *)
Definition primitive_rootW (m : Z) : eff nat Z :=
  if m =? 2 then eret 1
  else if m =? 167772161 then eret 3
  else if m =? 469762049 then eret 3
  else if m =? 754974721 then eret 11
  else if m =? 998244353 then eret 3
  else
    '(divs, cnt) <* prime_divsW m ;*
    eloop (Z.to_nat m) (fun g =>
      ok <* root_testW m divs cnt g ;*
      if (ok : bool) then eret (inr (wrap i32 g)) else g <* elift (iadd i64 g 1) ;* eret (inl g)) 2.
Close Scope Z_scope.
