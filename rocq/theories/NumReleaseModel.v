(** src/math/number_theory.rs and the modint addition as compiled by `cargo build --release`: `+`, `-` and `*` wrap; `/` and `%`
    panic as they do in the dev profile (a zero divisor, and MIN by -1).  gcd contains no other operation than `%`, so the
    definition of NumModel.v is the code of both profiles. *)
From Verif Require Import Prelude IntModel NumModel ModIntModel.
Open Scope Z_scope.

Definition wr_add (T : ity) (a b : Z) : Z := wrap T (a + b).
Definition wr_sub (T : ity) (a b : Z) : Z := wrap T (a - b).
Definition wr_mul (T : ity) (a b : Z) : Z := wrap T (a * b).

(** number_theory.rs:12-14  lcm *)
Definition lcm_release (T : ity) (a b : Z) : res Z :=
  let p := wr_mul T a b in
  g ← gcd T a b;
  idiv T p g.

(** number_theory.rs:17-23  ex_gcd *)
Fixpoint ex_gcd_rec_release (T : ity) (fuel : nat) (a b : Z) : res (Z * Z * Z) :=
  match fuel with
  | O => Diverge
  | Datatypes.S fuel =>
      if b =? 0 then Ok (1, 0, a)
      else
        r ← irem T a b;
        '(x, y, g) ← ex_gcd_rec_release T fuel b r;
        q ← idiv T a b;
        let p := wr_mul T q y in
        Ok (y, wr_sub T x p, g)
  end.
Definition ex_gcd_release (T : ity) (a b : Z) : res (Z * Z * Z) := ex_gcd_rec_release T (euclid_fuel T) a b.

(** number_theory.rs:34-44  loop body of ex_crt *)
Definition ex_crt_body_release (a b m : list Z) (i : nat) (s : option (Z * Z)) : res (option (Z * Z)) :=
  match s with
  | None => Ok None
  | Some (x, lcm) =>
      ai ← vget a i;
      let a_ := wr_mul i64 ai lcm in
      bi ← vget b i;
      ai ← vget a i;
      let ax := wr_mul i64 ai x in
      let b_ := wr_sub i64 bi ax in
      m_ ← vget m i;
      '(y, _, g) ← ex_gcd_release i64 a_ m_;
      r ← irem i64 b_ g;
      if negb (r =? 0) then Ok None
      else
        b_ ← idiv i64 b_ g;
        m_ ← idiv i64 m_ g;
        let p := wr_mul i128 y b_ in
        t ← irem i128 p m_;
        let d := wr_mul i64 lcm (wrap i64 t) in
        let x := wr_add i64 x d in
        let lcm := wr_mul i64 lcm m_ in
        Ok (Some (x, lcm))
  end.

(** number_theory.rs:31-47  ex_crt *)
Definition ex_crt_release (a b m : list Z) : res (option (Z * Z)) :=
  let n := length a in
  s ← rfor (range 0 n) (ex_crt_body_release a b m) (Some (0, 1));
  match s with
  | None => Ok None
  | Some (x, lcm) =>
      let z := wr_add i64 x lcm in
      x ← irem i64 z lcm;
      Ok (Some (x, lcm))
  end.

(** modint.rs:795-802  add_impl *)
Definition mi_add_release (m a b : Z) : res Z :=
  let val := wr_add u32 a b in
  if m <=? val then Ok (wr_sub u32 val m) else Ok val.
Close Scope Z_scope.
