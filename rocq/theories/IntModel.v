(** Primitive integer types: checked arithmetic (overflow checks on) and casts.
    Rust's `/` and `%` truncate towards zero: Z.quot and Z.rem. *)
From Verif Require Import Prelude.
Open Scope Z_scope.

(** An integer type: signedness and number of bits. *)
Record ity := ITy { it_signed : bool; it_bits : Z }.

Definition it_min (T : ity) : Z := if it_signed T then - 2 ^ (it_bits T - 1) else 0.
Definition it_max (T : ity) : Z := if it_signed T then 2 ^ (it_bits T - 1) - 1 else 2 ^ it_bits T - 1.
Definition in_ty (T : ity) (x : Z) : Prop := it_min T <= x <= it_max T.

Definition i8 := ITy true 8. Definition i16 := ITy true 16. Definition i32 := ITy true 32.
Definition i64 := ITy true 64. Definition i128 := ITy true 128. Definition isize := i64.
Definition u8 := ITy false 8. Definition u16 := ITy false 16. Definition u32 := ITy false 32.
Definition u64 := ITy false 64. Definition u128 := ITy false 128. Definition usize := u64.

(** src/traits/numeric.rs:58  the types for which Integral is implemented (64-bit target) *)
Definition prim_types : list ity := [i8; i16; i32; i64; i128; isize; u8; u16; u32; u64; u128; usize].

(** A value that must fit, or the operation panics. *)
Definition chk (T : ity) (x : Z) : res Z :=
  if (it_min T <=? x) && (x <=? it_max T) then Ok x else Panic.
Definition iadd (T : ity) (a b : Z) : res Z := chk T (a + b).
Definition isub (T : ity) (a b : Z) : res Z := chk T (a - b).
Definition imul (T : ity) (a b : Z) : res Z := chk T (a * b).
(** `a / b`: panics on b = 0 and on MIN / -1 *)
Definition idiv (T : ity) (a b : Z) : res Z := if b =? 0 then Panic else chk T (Z.quot a b).
(** `a % b`: panics on b = 0 and on MIN % -1 *)
Definition irem (T : ity) (a b : Z) : res Z :=
  if b =? 0 then Panic else _ ← chk T (Z.quot a b); Ok (Z.rem a b).

(** `x as T`: two's complement truncation *)
Definition wrap (T : ity) (x : Z) : Z := (x - it_min T) mod 2 ^ it_bits T + it_min T.

Lemma chk_ok T x : in_ty T x -> chk T x = Ok x.
Proof. unfold in_ty, chk. intros H. destruct (Z.leb_spec (it_min T) x), (Z.leb_spec x (it_max T)); cbn; auto; lia. Qed.
Lemma iadd_ok T a b : in_ty T (a + b) -> iadd T a b = Ok (a + b).
Proof. apply chk_ok. Qed.
Lemma isub_ok T a b : in_ty T (a - b) -> isub T a b = Ok (a - b).
Proof. apply chk_ok. Qed.
Lemma imul_ok T a b : in_ty T (a * b) -> imul T a b = Ok (a * b).
Proof. apply chk_ok. Qed.
Lemma chk_inv T x y : chk T x = Ok y -> y = x /\ in_ty T x.
Proof.
  unfold in_ty, chk. destruct (Z.leb_spec (it_min T) x), (Z.leb_spec x (it_max T)); cbn; intros E; try discriminate.
  injection E as <-. lia.
Qed.
Lemma chk_panic T x : ~ in_ty T x -> chk T x = Panic.
Proof. unfold in_ty, chk. intros H. destruct (Z.leb_spec (it_min T) x), (Z.leb_spec x (it_max T)); cbn; auto; lia. Qed.
Lemma chk_cases T x : (in_ty T x /\ chk T x = Ok x) \/ (~ in_ty T x /\ chk T x = Panic).
Proof.
  destruct (chk T x) eqn:E.
  - apply chk_inv in E as E'. destruct E' as [-> H]. left. auto.
  - right. split; [|reflexivity]. intros H%chk_ok. congruence.
  - unfold chk in E. destruct (_ && _); discriminate.
Qed.

Lemma it_range T : 0 < it_bits T -> it_max T = it_min T + 2 ^ it_bits T - 1.
Proof.
  intros H. unfold it_max, it_min. destruct (it_signed T); [|lia].
  replace (it_bits T) with (Z.succ (it_bits T - 1)) at 3 by lia. rewrite Z.pow_succ_r by lia. lia.
Qed.
Lemma wrap_in T x : 0 < it_bits T -> in_ty T (wrap T x).
Proof.
  intros H. unfold in_ty. rewrite (it_range T H). unfold wrap.
  pose proof (Z.mod_pos_bound (x - it_min T) (2 ^ it_bits T) ltac:(apply Z.pow_pos_nonneg; lia)). lia.
Qed.
Lemma wrap_id T x : 0 < it_bits T -> in_ty T x -> wrap T x = x.
Proof. intros H Hx. unfold in_ty in Hx. rewrite (it_range T H) in Hx. unfold wrap. rewrite Z.mod_small by lia. lia. Qed.
Close Scope Z_scope.
