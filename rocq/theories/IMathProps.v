(** Properties C35-C40: src/math/internal_math.rs *)
From Coq Require Import Znumtheory.
From Verif Require Import Prelude IntModel NumProof IMathModel IMathSpec IMathProof IMathRoot.
Open Scope Z_scope.

(** C35: safe_mod is the mathematical remainder; no panic. *)
Theorem C35_safe_mod : forall x m, in_ty i64 x -> in_ty i64 m -> 1 <= m ->
  exists r, safe_mod x m = Ok r /\ mod_of x m r /\ forall r', mod_of x m r' -> r' = r.
Proof.
  intros x m Hx Hm H1. exists (x mod m). split; [apply safe_mod_ok; assumption|].
  pose proof (Z.mod_pos_bound x m ltac:(lia)) as B. split.
  - split; [exact B|]. exists (x / m). rewrite (Z.div_mod x m) at 1 by lia. lia.
  - intros r' [Hr [c Hc]]. apply (Z.mod_unique_pos x m c); lia.
Qed.
Print Assumptions C35_safe_mod.

Example C35_nonvacuous : in_ty i64 (-7) /\ in_ty i64 5 /\ safe_mod (-7) 5 = Ok 3 /\ safe_mod (- 2 ^ 63) (2 ^ 63 - 1) = Ok (2 ^ 63 - 2).
Proof. rewrite !i64_range. split; [lia|]. split; [lia|]. split; vm_compute; reflexivity. Qed.

(** C36: Barrett multiplication is exact for 1 <= m <= 2^31. *)
Theorem C36_barrett_mul : forall m a b, 1 <= m <= 2 ^ 31 -> 0 <= a < m -> 0 <= b < m ->
  exists br, barrett_new m = Ok br /\ barrett_umod br = m /\
  exists v, barrett_mul br a b = Ok v /\ mod_of (a * b) m v.
Proof.
  intros m a b Hm Ha Hb. destruct (barrett_ok m a b Hm Ha Hb) as (br & H1 & H2 & H3).
  exists br. split; [exact H1|]. split; [exact H2|]. exists (a * b mod m). split; [exact H3|].
  split; [apply Z.mod_pos_bound; lia|]. exists (a * b / m). rewrite (Z.div_mod (a * b) m) at 1 by lia. lia.
Qed.
Print Assumptions C36_barrett_mul.

Example C36_nonvacuous : (br ← barrett_new (2 ^ 31); barrett_mul br (2 ^ 31 - 1) (2 ^ 31 - 2)) = Ok 2 /\
  (br ← barrett_new 1; barrett_mul br 0 0) = Ok 0.
Proof. split; vm_compute; reflexivity. Qed.

(** The bound m <= 2^31 is needed: for m = 2^32 - 1 the result is wrong. *)
Example C36_bound_needed : exists a b, 0 <= a < 2 ^ 32 - 1 /\ 0 <= b < 2 ^ 32 - 1 /\
  exists br v, barrett_new (2 ^ 32 - 1) = Ok br /\ barrett_mul br a b = Ok v /\ v <> a * b mod (2 ^ 32 - 1).
Proof.
  exists 4294967256, 4294967272. split; [lia|]. split; [lia|]. eexists _, _.
  split; [vm_compute; reflexivity|]. split; [vm_compute; reflexivity|]. vm_compute. discriminate.
Qed.

(** C37: pow_mod terminates without panic and is x^n mod m. *)
Theorem C37_pow_mod : forall x n m, in_ty i64 x -> in_ty i64 n -> 0 <= n -> in_ty i32 m -> 1 <= m ->
  exists v, pow_mod x n m = Ok v /\ mod_of (x ^ n) m v.
Proof.
  intros x n m Hx Hn Hn0 Hm Hm1. exists (x ^ n mod m). split; [apply pow_mod_ok; assumption|].
  split; [apply Z.mod_pos_bound; lia|]. exists (x ^ n / m). rewrite (Z.div_mod (x ^ n) m) at 1 by lia. lia.
Qed.
Print Assumptions C37_pow_mod.

(** A negative exponent violates the documented precondition: the loop does not end, whatever the fuel. *)
Theorem C37_pow_mod_negative_diverges : forall fuel n r y m, 2 <= m <= 2 ^ 31 - 1 -> n < 0 -> 0 <= r < m -> 0 <= y < m ->
  rloop fuel (pow_mod_step m) (n, r, y) = Diverge.
Proof. intros fuel n r y m Hm Hn Hr Hy. apply pow_mod_neg_loop; assumption. Qed.
Print Assumptions C37_pow_mod_negative_diverges.

Example C37_nonvacuous : pow_mod (-3) 5 11 = Ok 10 /\ pow_mod 2 (2 ^ 62) (2 ^ 31 - 1) = Ok 16 /\ pow_mod 5 0 1 = Ok 0.
Proof. repeat split; vm_compute; reflexivity. Qed.

(** C38, first half: is_prime terminates without panic for every i32; it answers true exactly for 2, 7, 61 and the odd
    n > 2 that pass the strong probable-prime test to bases 2, 7 and 61; hence it answers true on every prime.
    That no composite i32 passes the three tests is in PrimalityProps.v (C38_is_prime). *)
Theorem C38_is_prime_strong_tests : forall n, in_ty i32 n ->
  exists b, is_prime n = Ok b /\
    (b = true <-> n = 2 \/ n = 7 \/ n = 61 \/ (2 < n /\ Z.odd n = true /\ sprp n 2 /\ sprp n 7 /\ sprp n 61)) /\
    (prime n -> b = true).
Proof.
  intros n Hn. destruct (is_prime_ok n Hn) as (b & E & H). exists b. split; [exact E|]. split; [exact H|].
  intros Hp. apply H, prime_spec, Hp.
Qed.
Print Assumptions C38_is_prime_strong_tests.

Example C38_nonvacuous : is_prime 2147483647 = Ok true /\ is_prime 2047 = Ok false /\ is_prime (-5) = Ok false /\ is_prime 61 = Ok true.
Proof. repeat split; vm_compute; reflexivity. Qed.

(** C39: inv_gcd returns the gcd and the reduced Bezout coefficient; no panic. *)
Theorem C39_inv_gcd : forall a b, in_ty i64 a -> in_ty i64 b -> 1 <= b ->
  exists g x, inv_gcd a b = Ok (g, x) /\ g = Z.gcd a b /\ (b | a * x - g) /\ 0 <= x < b / g.
Proof. apply inv_gcd_ok. Qed.
Print Assumptions C39_inv_gcd.

Example C39_nonvacuous : inv_gcd 6 9 = Ok (3, 2) /\ inv_gcd (-1) 7 = Ok (1, 6) /\ inv_gcd (- 2 ^ 63) (2 ^ 63 - 1) = Ok (1, 2 ^ 63 - 2).
Proof. repeat split; vm_compute; reflexivity. Qed.

(** C40: primitive_root terminates and returns the least generator modulo a prime. *)
Theorem C40_primitive_root : forall m, in_ty i32 m -> prime m ->
  exists g, primitive_root m = Ok g /\ 1 <= g < m /\
    (forall x, 1 <= x < m -> exists k, 0 <= k /\ mod_of (g ^ k) m x) /\
    (forall h, 1 <= h < g -> exists x, 1 <= x < m /\ forall k, 0 <= k -> ~ mod_of (h ^ k) m x).
Proof.
  intros m Hm Hp. destruct (primitive_root_ok m Hp Hm) as (g & E & Hg & Hgen & Hmin).
  exists g. split; [exact E|]. split; [exact Hg|]. split; [exact Hgen|]. intros h Hh.
  apply (least_not_generator m h Hp); [lia|]. apply Hmin. exact Hh.
Qed.
Print Assumptions C40_primitive_root.

Example C40_nonvacuous : prime 17 /\ primitive_root 17 = Ok 3 /\ primitive_root 41 = Ok 6.
Proof. split; [apply prime_17|]. split; vm_compute; reflexivity. Qed.
Close Scope Z_scope.
