(** Model of src/misc/modint.rs.  A modint is represented by its `val : u32`.
    Debug build: overflow checks and debug assertions are on. *)
From Verif Require Import Prelude IntModel IMathModel InputModel.
Open Scope Z_scope.

(** std: `a.rem_euclid(b)` on T *)
Definition irem_euclid (T : ity) (a b : Z) : res Z :=
  r ← irem T a b;
  if r <? 0 then Ok (wrap T (r + Z.abs b)) else Ok r.

(** modint.rs:695-750  rem_euclid_u32 for the type T (64-bit target) *)
Definition rem_euclid_u32 (T : ity) (v modulus : Z) : res Z :=
  if it_signed T then
    if it_bits T <=? 64 then r ← irem_euclid i64 (wrap i64 v) modulus; Ok (wrap u32 r)  (* 695-708 *)
    else r ← irem_euclid i128 v modulus; Ok (wrap u32 r)                                (* 710-715 *)
  else
    if it_bits T <=? 32 then irem u32 (wrap u32 v) modulus                              (* 717-728, 743 *)
    else r ← irem T v (wrap T modulus); Ok (wrap u32 r).                                (* 730-741, 744, 750 *)

(** What the two modint types provide: modulus, mul_impl and inv. *)
Record modctx := ModCtx { mc_m : Z; mc_mul : Z -> Z -> res Z; mc_inv : Z -> res Z }.

(** modint.rs:122-124, 370-372, 657-659  new; From<V> (855-860) is the same call *)
Definition mi_new (m : Z) (T : ity) (v : Z) : res Z := rem_euclid_u32 T v m.

(** modint.rs:763-765  default_impl *)
Definition mi_default : Z := 0.

(** modint.rs:768-772  from_str_impl; `s.parse::<i64>()` is std's parser (InputModel.v) *)
Definition mi_from_str (m : Z) (s : list Z) : res Z :=
  match parse_int i64 s with Some v => mi_new m i64 v | None => Panic end.

(** std: decimal digits of a u32, last digit first found; at most 10 of them *)
Fixpoint u32_fmt (fuel : nat) (n : Z) (acc : list Z) : list Z :=
  match fuel with
  | O => acc
  | S fuel =>
      let acc := (48 + n mod 10) :: acc in
      if n / 10 =? 0 then acc else u32_fmt fuel (n / 10) acc
  end.
(** modint.rs:780-787  display_impl and debug_impl with the default format *)
Definition mi_display (v : Z) : list Z := u32_fmt 10 v [].

(** modint.rs:88, 314  derived PartialEq: the representatives (the other field is a PhantomData) *)
Definition mi_eq (a b : Z) : bool := a =? b.
(** modint.rs:775-777  hash_impl: the bytes std gives the hasher for a u32 (little endian) *)
Definition mi_hash (v : Z) : list Z := [v mod 256; v / 256 mod 256; v / 256 / 256 mod 256; v / 256 / 256 / 256 mod 256].

(** modint.rs:795-802  add_impl *)
Definition mi_add (m a b : Z) : res Z :=
  val ← iadd u32 a b;
  if m <=? val then isub u32 val m else Ok val.

(** modint.rs:805-812  sub_impl *)
Definition mi_sub (m a b : Z) : res Z :=
  let val := wrap u32 (a - b) in
  if m <=? val then Ok (wrap u32 (val + m)) else Ok val.

(** modint.rs:790-792  neg_impl *)
Definition mi_neg (m a : Z) : res Z := mi_sub m 0 a.

(** modint.rs:824-826  mul_impl of StaticModInt *)
Definition static_mul (m a b : Z) : res Z :=
  p ← imul u64 a b;
  r ← irem u64 p m;
  Ok (wrap u32 r).

(** modint.rs:678-684  one test of `while n > 0` with its body; state (n, x, r) *)
Definition mi_pow_step (mul : Z -> Z -> res Z) (s : Z * Z * Z) : res ((Z * Z * Z) + Z) :=
  let '(n, x, r) := s in
  if 0 <? n then
    r ← (if Z.land n 1 =? 1 then mul r x else Ok r);
    x ← mul x x;
    Ok (inl (Z.shiftr n 1, x, r))
  else Ok (inr r).

(** modint.rs:675-686  pow; a u64 exponent has at most 64 bits *)
Definition mi_pow (mul : Z -> Z -> res Z) (x n : Z) : res Z :=
  rloop 66 (mi_pow_step mul) (n, x, 1).

(** modint.rs:754-760  inv_for_non_prime_modulus *)
Definition inv_non_prime (m a : Z) : res Z :=
  '(g, x) ← inv_gcd a m;
  if negb (g =? 1) then Panic else mi_new m i64 x.

(** modint.rs:169-184  StaticModInt::inv; `try_into().unwrap()` panics when VALUE does not fit i32 *)
Definition static_inv (m : Z) (hint : bool) (a : Z) : res Z :=
  if hint then
    if a =? 0 then Panic
    else
      v ← chk i32 m;
      p ← is_prime v;
      rassert p ;;
      e ← isub u32 m 2;
      mi_pow (static_mul m) a e
  else inv_non_prime m a.

(** StaticModInt<M> with M::VALUE = m and M::HINT_VALUE_IS_PRIME = hint *)
Definition static_ctx (m : Z) (hint : bool) : modctx := ModCtx m (static_mul m) (static_inv m hint).

(** modint.rs:257-259, 273-275 *)
Definition Mod1000000007 : modctx := static_ctx 1000000007 true.
Definition Mod998244353 : modctx := static_ctx 998244353 true.

(** modint.rs:417-419, 829-834  DynamicModInt with the companion Barrett *)
Definition dynamic_ctx (br : barrett) : modctx :=
  ModCtx (barrett_umod br) (barrett_mul br) (inv_non_prime (barrett_umod br)).

(** modint.rs:355-360, 482-486  set_modulus in one thread *)
Definition set_modulus (m : Z) : res barrett :=
  if m =? 0 then Panic else barrett_new m.

(** modint.rs:453-458, 477-479  the initial Barrett *)
Definition default_barrett : res barrett := barrett_new 998244353.

(** modint.rs:817-819  div_impl *)
Definition mi_div (c : modctx) (a b : Z) : res Z := i ← mc_inv c b; mc_mul c a i.

(** modint.rs:1018-1050  sum and product *)
Definition mi_sum (c : modctx) (l : list Z) : res Z := rfor l (fun x acc => mi_add (mc_m c) acc x) 0.
Definition mi_product (c : modctx) (l : list Z) : res Z := rfor l (fun x acc => mc_mul c acc x) 1.

(** Programs over modints: variables hold modint values.
    An integer operand (T, v) of primitive type T is converted with `new` (lines 1004-1005, 1014-1015). *)
Inductive mexpr :=
| MVar (i : nat)
| MNew (T : ity) (v : Z)
| MRaw (v : Z)
| MDefault
| MAdd (a b : mexpr) | MSub (a b : mexpr) | MMul (a b : mexpr) | MNeg (a : mexpr)
| MAddInt (a : mexpr) (T : ity) (v : Z) | MSubInt (a : mexpr) (T : ity) (v : Z) | MMulInt (a : mexpr) (T : ity) (v : Z)
| MPow (a : mexpr) (n : Z).

Fixpoint meval (c : modctx) (env : list Z) (e : mexpr) : res Z :=
  match e with
  | MVar i => vget env i
  | MNew T v => mi_new (mc_m c) T v
  | MRaw v => Ok v
  | MDefault => Ok mi_default
  | MAdd a b => x ← meval c env a; y ← meval c env b; mi_add (mc_m c) x y
  | MSub a b => x ← meval c env a; y ← meval c env b; mi_sub (mc_m c) x y
  | MMul a b => x ← meval c env a; y ← meval c env b; mc_mul c x y
  | MNeg a => x ← meval c env a; mi_neg (mc_m c) x
  | MAddInt a T v => x ← meval c env a; y ← mi_new (mc_m c) T v; mi_add (mc_m c) x y
  | MSubInt a T v => x ← meval c env a; y ← mi_new (mc_m c) T v; mi_sub (mc_m c) x y
  | MMulInt a T v => x ← meval c env a; y ← mi_new (mc_m c) T v; mc_mul c x y
  | MPow a n => x ← meval c env a; mi_pow (mc_mul c) x n
  end.

(** A single-threaded program over DynamicModInt<DefaultId>: the companion Barrett and the variables made so far. *)
Inductive dop := DSet (m : Z) | DModulus | DLet (e : mexpr) | DInv (i : nat) | DDiv (i j : nat).

(** The value observed by an operation: the modulus for DModulus, the new variable's val for DLet, DInv and DDiv. *)
Definition dstep (s : barrett * list Z) (o : dop) : res (barrett * list Z * option Z) :=
  let '(br, env) := s in
  match o with
  | DSet m => br ← set_modulus m; Ok (br, env, None)
  | DModulus => Ok (br, env, Some (barrett_umod br))
  | DLet e => v ← meval (dynamic_ctx br) env e; Ok (br, env ++ [v], Some v)
  | DInv i => x ← vget env i; v ← mc_inv (dynamic_ctx br) x; Ok (br, env ++ [v], Some v)
  | DDiv i j => x ← vget env i; y ← vget env j; v ← mi_div (dynamic_ctx br) x y; Ok (br, env ++ [v], Some v)
  end.

Fixpoint drun (s : barrett * list Z) (ops : list dop) : res (list (option Z)) :=
  match ops with
  | [] => Ok []
  | o :: ops => '(s, out) ← dstep s o; outs ← drun s ops; Ok (out :: outs)
  end.

(** ** Two threads sharing one Barrett (modint.rs:482-486 and 494-498).
    SeqCst atomics: an execution is an interleaving of the atomic accesses.
    Thread A runs update(m2): store m, store im.  Thread B runs mul(a, b): load m, load im, then computes. *)
Inductive bstep := StoreM | StoreIm | LoadM | LoadIm.
Record bshared := BShared { bs_m : Z; bs_im : Z; bs_lm : option Z; bs_lim : option Z }.
Definition bexec (m2 im2 : Z) (s : bshared) (o : bstep) : bshared :=
  match o with
  | StoreM => BShared m2 (bs_im s) (bs_lm s) (bs_lim s)
  | StoreIm => BShared (bs_m s) im2 (bs_lm s) (bs_lim s)
  | LoadM => BShared (bs_m s) (bs_im s) (Some (bs_m s)) (bs_lim s)
  | LoadIm => BShared (bs_m s) (bs_im s) (bs_lm s) (Some (bs_im s))
  end.
(** The value returned by mul(a, b) after the interleaving [sched]. *)
Definition brun (m1 m2 a b : Z) (sched : list bstep) : res Z :=
  b1 ← barrett_new m1;
  b2 ← barrett_new m2;
  let s := foldl (bexec (br_m b2) (br_im b2)) (BShared (br_m b1) (br_im b1) None None) sched in
  m ← runwrap (bs_lm s);
  im ← runwrap (bs_lim s);
  mul_mod a b m im.
Close Scope Z_scope.
