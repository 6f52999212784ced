(** Model of src/misc/util.rs and of the bit tricks used by several files. *)
From Verif Require Import Prelude.
Open Scope Z_scope.

(** u{w}::leading_zeros: number of leading zero bits of a w-bit unsigned value (std). *)
Definition leading_zeros (w x : Z) : Z :=
  if x =? 0 then w else w - 1 - Z.log2 x.

(** Checked u32 subtraction (overflow checks on): panics below zero. *)
Definition csub (a b : Z) : res Z := if b <=? a then Ok (a - b) else Panic.

(** src/misc/util.rs:1-3  lg: `64 - 1 - i.leading_zeros()` in u32 arithmetic. *)
Definition lg (i : Z) : res Z := csub (64 - 1) (leading_zeros 64 i).

(** u32::saturating_sub (std). *)
Definition saturating_sub (a b : Z) : Z := Z.max 0 (a - b).

(** src/misc/util.rs:5-7  ceil_lg: `32 - n.saturating_sub(1).leading_zeros()`. *)
Definition ceil_lg (n : Z) : res Z := csub 32 (leading_zeros 32 (saturating_sub n 1)).

Close Scope Z_scope.

(** `x & x.wrapping_neg()` (usize) and `x & -x` (isize) for an index x.
    Simplification: two's complement of unbounded width; equal to the 64-bit value for 0 <= x < 2^63. *)
Definition lowbit (x : nat) : nat := Z.to_nat (Z.land (Z.of_nat x) (- Z.of_nat x)).

(** Checked usize subtraction on indices. *)
Definition nsub (a b : nat) : res nat := if b <=? a then Ok (a - b) else Panic.
