(** Model of src/math/number_theory.rs. *)
From Verif Require Import Prelude IntModel.
Open Scope Z_scope.

(** Steps allowed to Euclid's algorithm on T: twice the number of bits, and a bit. *)
Definition euclid_fuel (T : ity) : nat := Z.to_nat (2 * it_bits T) + 4.

(** number_theory.rs:4-8  one test of `while b != 0` with its body; state (a, b) *)
Definition gcd_step (T : ity) (s : Z * Z) : res ((Z * Z) + Z) :=
  let '(a, b) := s in
  if b =? 0 then Ok (inr a)
  else
    let t := b in
    b ← irem T a b;
    Ok (inl (t, b)).

(** number_theory.rs:3-10  gcd *)
Definition gcd (T : ity) (a b : Z) : res Z := rloop (euclid_fuel T) (gcd_step T) (a, b).

(** number_theory.rs:12-14  lcm *)
Definition lcm (T : ity) (a b : Z) : res Z :=
  p ← imul T a b;
  g ← gcd T a b;
  idiv T p g.

(** number_theory.rs:17-23  ex_gcd (recursive) *)
Fixpoint ex_gcd_rec (T : ity) (fuel : nat) (a b : Z) : res (Z * Z * Z) :=
  match fuel with
  | O => Diverge
  | Datatypes.S fuel =>
      if b =? 0 then Ok (1, 0, a)
      else
        r ← irem T a b;
        '(x, y, g) ← ex_gcd_rec T fuel b r;
        q ← idiv T a b;
        p ← imul T q y;
        z ← isub T x p;
        Ok (y, z, g)
  end.
Definition ex_gcd (T : ity) (a b : Z) : res (Z * Z * Z) := ex_gcd_rec T (euclid_fuel T) a b.

(** number_theory.rs:34-44  loop body of ex_crt; state Some (x, lcm), or None once `return None` was reached *)
Definition ex_crt_body (a b m : list Z) (i : nat) (s : option (Z * Z)) : res (option (Z * Z)) :=
  match s with
  | None => Ok None
  | Some (x, lcm) =>
      ai ← vget a i;
      a_ ← imul i64 ai lcm;
      bi ← vget b i;
      ai ← vget a i;
      ax ← imul i64 ai x;
      b_ ← isub i64 bi ax;
      m_ ← vget m i;
      '(y, _, g) ← ex_gcd i64 a_ m_;
      r ← irem i64 b_ g;
      if negb (r =? 0) then Ok None
      else
        b_ ← idiv i64 b_ g;
        m_ ← idiv i64 m_ g;
        p ← imul i128 y b_;
        t ← irem i128 p m_;
        d ← imul i64 lcm (wrap i64 t);
        x ← iadd i64 x d;
        lcm ← imul i64 lcm m_;
        Ok (Some (x, lcm))
  end.

(** number_theory.rs:31-47  ex_crt *)
Definition ex_crt (a b m : list Z) : res (option (Z * Z)) :=
  let n := length a in
  s ← rfor (range 0 n) (ex_crt_body a b m) (Some (0, 1));
  match s with
  | None => Ok None
  | Some (x, lcm) =>
      z ← iadd i64 x lcm;
      x ← irem i64 z lcm;
      Ok (Some (x, lcm))
  end.
Close Scope Z_scope.
