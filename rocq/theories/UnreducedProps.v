(** Property C101: src/misc/modint.rs on values that are not below the modulus (raw without its constraint, or values made
    before a set_modulus).  The model is ModIntModel.v. *)
From Coq Require Import Znumtheory Zpow_facts.
From Verif Require Import Prelude NumTheory IntModel NumProof IMathModel IMathSpec IMathProof IMathRoot ModIntModel ModIntSpec ModIntProof
  UnreducedSpec UnreducedProof.
Open Scope Z_scope.

(** Products reduce operands of any size, on both types. *)
Theorem C101_mul : forall m a b, 0 <= a < 2 ^ 32 -> 0 <= b < 2 ^ 32 ->
  (forall hint, 1 <= m < 2 ^ 32 -> exists v, mc_mul (static_ctx m hint) a b = Ok v /\ mod_of (a * b) m v) /\
  (forall br, 2 <= m <= 2 ^ 31 -> set_modulus m = Ok br -> exists v, mc_mul (dynamic_ctx br) a b = Ok v /\ mod_of (a * b) m v).
Proof.
  intros m a b Ha Hb. split.
  - intros hint Hm. exists (a * b mod m). split; [apply static_mul_any; assumption|apply mod_of_mod; lia].
  - intros br Hm E. exists (a * b mod m). split; [apply (dynamic_mul_any m br); assumption|apply mod_of_mod; lia].
Qed.
Print Assumptions C101_mul.

(** DynamicModInt with a modulus above 2^31: exactly which products are wrong, and by how much. *)
Theorem C101_mul_large : forall m a b br, 2 ^ 31 < m < 2 ^ 32 -> 0 <= a < 2 ^ 32 -> 0 <= b < 2 ^ 32 -> set_modulus m = Ok br ->
  let inverse := (2 ^ 64 - 1) / m + 1 in
  let wrong := a * b / m < a * b * inverse / 2 ^ 64 /\ a * b mod m < 2 * m - 2 ^ 32 in
  exists v, mc_mul (dynamic_ctx br) a b = Ok v /\ (~ wrong -> mod_of (a * b) m v) /\ (wrong -> mod_of (a * b) m (v - (2 ^ 32 - m))).
Proof.
  intros m a b br Hm Ha Hb E. cbv zeta. rewrite barrett_of in E by lia. injection E as <-. cbn [dynamic_ctx mc_mul]. unfold barrett_mul. cbn [br_m br_im].
  rewrite (mul_mod_any m a b _) by (reflexivity || lia). eexists. split; [reflexivity|].
  pose proof (mod_of_mod (a * b) m ltac:(lia)) as M.
  destruct (Z.ltb_spec (a * b / m) (a * b * ((2 ^ 64 - 1) / m + 1) / 2 ^ 64)) as [H1|H1]; cbn [andb].
  - destruct (Z.ltb_spec (a * b mod m) (2 * m - 2 ^ 32)) as [H2|H2].
    + split; [tauto|]. intros _. replace (a * b mod m + 2 ^ 32 - m - (2 ^ 32 - m)) with (a * b mod m) by lia. exact M.
    + split; [intros _; exact M|]. lia.
  - split; [intros _; exact M|]. lia.
Qed.
Print Assumptions C101_mul_large.

(** DynamicModInt modulo 1: the product of two non-zero values is not 0. *)
Theorem C101_mul_one : forall a b br, 0 <= a < 2 ^ 32 -> 0 <= b < 2 ^ 32 -> set_modulus 1 = Ok br ->
  mc_mul (dynamic_ctx br) a b = Ok (if a * b mod 2 ^ 32 =? 0 then 0 else (a * b + 1) mod 2 ^ 32).
Proof.
  intros a b br Ha Hb E. vm_compute in E. injection E as <-. cbn [dynamic_ctx mc_mul]. unfold barrett_mul, mul_mod. cbn [br_m br_im].
  assert (Hz : 0 <= a * b < 2 ^ 64).
  { assert (0 <= a * b <= (2 ^ 32 - 1) * (2 ^ 32 - 1)) by (clear -Ha Hb; nia). change (2 ^ 64) with (2 ^ 32 * 2 ^ 32). lia. }
  rewrite imul_ok by (rewrite u64_range; lia). cbn [mbind res_bind]. set (z := a * b) in *. clearbody z.
  unfold imul. rewrite Z.mul_0_r. rewrite (chk_ok u128) by (rewrite u128_range; lia). cbn [mbind res_bind].
  change (Z.shiftr 0 64) with 0. rewrite !wrap_u64. change ((0 mod 2 ^ 64 * 1) mod 2 ^ 64) with 0. rewrite Z.sub_0_r, (Z.mod_small z) by lia.
  rewrite !wrap_u32. pose proof (Z.mod_pos_bound z (2 ^ 32) ltac:(lia)). rewrite Zplus_mod_idemp_l.
  destruct (Z.eqb_spec (z mod 2 ^ 32) 0) as [->|]; [reflexivity|]. destruct (Z.leb_spec 1 (z mod 2 ^ 32)); [reflexivity|lia].
Qed.
Print Assumptions C101_mul_one.

(** A sum takes off the modulus at most once. *)
Theorem C101_add : forall m a b, 1 <= m < 2 ^ 32 -> 0 <= a < 2 ^ 32 -> 0 <= b < 2 ^ 32 ->
  (2 ^ 32 <= a + b -> mi_add m a b = Panic) /\
  (a + b < 2 ^ 32 -> exists v, mi_add m a b = Ok v /\ (m | a + b - v) /\ (mod_of (a + b) m v <-> a + b < 2 * m)).
Proof.
  intros m a b Hm Ha Hb. rewrite add_any by assumption. destruct (Z.ltb_spec (a + b) (2 ^ 32)); [|split; [reflexivity|lia]].
  split; [lia|]. intros _. eexists. split; [reflexivity|]. unfold mod_of. destruct (Z.leb_spec m (a + b)).
  - assert ((m | a + b - (a + b - m))) as D by (exists 1; lia). split; [exact D|]. split; [lia|]. intros. split; [lia|exact D].
  - assert ((m | a + b - (a + b))) as D by (exists 0; lia). split; [exact D|]. split; [lia|]. intros. split; [lia|exact D].
Qed.
Print Assumptions C101_add.

(** A difference never panics.  It is right when it lies in -m..m-1; otherwise it can only be right for powers of two. *)
Theorem C101_sub : forall m a b, 1 <= m <= 2 ^ 31 -> 0 <= a < 2 ^ 32 -> 0 <= b < 2 ^ 32 -> exists v, mi_sub m a b = Ok v /\
  ((m | a - b - v) <-> - m <= a - b < 2 ^ 32 - m \/ (m | 2 ^ 32)) /\
  (mod_of (a - b) m v <-> - m <= a - b < m \/ ((m | 2 ^ 32) /\ (a - b < m - 2 ^ 32 \/ 2 ^ 32 - m <= a - b))).
Proof.
  intros m a b Hm Ha Hb. rewrite sub_any by assumption. cbv zeta. set (d := a - b). assert (Hd : - 2 ^ 32 < d < 2 ^ 32) by lia. clearbody d.
  eexists. split; [reflexivity|]. unfold mod_of.
  assert (D : forall k e, (m | d - (d + k * m + e * 2 ^ 32)) <-> (m | e * 2 ^ 32)).
  { intros k e. split; intros [q Hq]; [exists (- q - k)|exists (- q - k)]; lia. }
  assert (Dp : forall k, (m | d - (d + k * m))) by (intros k; exists (- k); lia).
  assert (Dn : forall k, (m | d - (d + k * m - 2 ^ 32)) <-> (m | 2 ^ 32)).
  { intros k. replace (d + k * m - 2 ^ 32) with (d + k * m + (-1) * 2 ^ 32) by lia. rewrite D. replace (-1 * 2 ^ 32) with (- (2 ^ 32)) by lia. apply Z.divide_opp_r. }
  assert (Dq : forall k, (m | d - (d + k * m + 2 ^ 32)) <-> (m | 2 ^ 32)).
  { intros k. replace (d + k * m + 2 ^ 32) with (d + k * m + 1 * 2 ^ 32) by lia. rewrite D. rewrite Z.mul_1_l. reflexivity. }
  destruct (Z.ltb_spec d (m - 2 ^ 32)).
  { replace (d + 2 ^ 32) with (d + 0 * m + 2 ^ 32) by lia. rewrite Dq. split; [|intuition lia]. intuition lia. }
  destruct (Z.ltb_spec d (- m)).
  { replace (d + m + 2 ^ 32) with (d + 1 * m + 2 ^ 32) by lia. rewrite Dq. split; intuition lia. }
  destruct (Z.ltb_spec d 0).
  { pose proof (Dp 1) as D1. replace (d + 1 * m) with (d + m) in D1 by lia. split; [|]; intuition lia. }
  destruct (Z.ltb_spec d m).
  { pose proof (Dp 0) as D1. replace (d + 0 * m) with d in D1 by lia. split; intuition lia. }
  destruct (Z.ltb_spec d (2 ^ 32 - m)).
  { pose proof (Dp 1) as D1. replace (d + 1 * m) with (d + m) in D1 by lia. split; intuition lia. }
  replace (d + m - 2 ^ 32) with (d + 1 * m - 2 ^ 32) by lia. rewrite Dn. split; intuition lia.
Qed.
Print Assumptions C101_sub.

(** Powers, also of exponent 0. *)
Theorem C101_pow : forall m x n, 0 <= x < 2 ^ 32 -> in_ty u64 n ->
  (forall hint, 2 <= m < 2 ^ 32 -> exists v, mi_pow (mc_mul (static_ctx m hint)) x n = Ok v /\ mod_of (x ^ n) m v) /\
  (forall br, 2 <= m <= 2 ^ 31 -> set_modulus m = Ok br -> exists v, mi_pow (mc_mul (dynamic_ctx br)) x n = Ok v /\ mod_of (x ^ n) m v).
Proof.
  intros m x n Hx Hn. split.
  - intros hint Hm. exists (x ^ n mod m). split; [|apply mod_of_mod; lia]. apply pow_any; try assumption. apply static_mul_any. lia.
  - intros br Hm E. exists (x ^ n mod m). split; [|apply mod_of_mod; lia]. apply pow_any; try assumption; [lia|]. apply (dynamic_mul_any m br); assumption.
Qed.
Print Assumptions C101_pow.

(** Inverses.  The extended-gcd path is right; the Fermat path answers 0 (1 modulo 2), instead of panicking, for non-zero multiples
    of the modulus. *)
Theorem C101_inv : forall m a, 0 <= a < 2 ^ 32 ->
  let spec inv :=
    (Z.gcd a m = 1 -> exists y, inv a = Ok y /\ 0 <= y < m /\ (m | a * y - 1)) /\ (Z.gcd a m <> 1 -> inv a = Panic) in
  (1 <= m < 2 ^ 32 -> spec (mc_inv (static_ctx m false))) /\
  (forall br, 2 <= m < 2 ^ 32 -> set_modulus m = Ok br -> spec (mc_inv (dynamic_ctx br))) /\
  (prime m -> m < 2 ^ 31 ->
    (~ (m | a) -> exists y, mc_inv (static_ctx m true) a = Ok y /\ 0 <= y < m /\ (m | a * y - 1)) /\
    (a = 0 -> mc_inv (static_ctx m true) a = Panic) /\
    ((m | a) -> a <> 0 -> mc_inv (static_ctx m true) a = Ok (if m =? 2 then 1 else 0))).
Proof.
  intros m a Ha spec. split; [|split].
  - intros Hm. apply inv_non_prime_any; assumption.
  - intros br Hm E. rewrite barrett_of in E by lia. injection E as <-. apply inv_non_prime_any; [|assumption]. cbn. lia.
  - intros Hp Hm. pose proof (prime_ge_2 m Hp). cbn [mc_inv static_ctx]. split; [|split].
    + intros Hn. assert (a <> 0) by (intros ->; apply Hn, Z.divide_0_r). rewrite static_inv_hint by (assumption || lia).
      eexists. split; [reflexivity|]. split; [apply Z.mod_pos_bound; lia|].
      apply Z.mod_divide; [lia|]. rewrite Zminus_mod, Zmult_mod_idemp_r, <- Z.pow_succ_r by lia.
      replace (Z.succ (m - 2)) with (m - 1) by lia. rewrite (@fermat_Z m a Hp Hn). rewrite (Z.mod_small 1) by lia. reflexivity.
    + intros ->. reflexivity.
    + intros Hd Hn. rewrite static_inv_hint by (assumption || lia). destruct (Z.eqb_spec m 2) as [->|H2]; [reflexivity|]. f_equal.
      apply Z.mod_divide; [lia|]. replace (m - 2) with (Z.succ (m - 3)) by lia. rewrite Z.pow_succ_r by lia. apply Z.divide_mul_l. exact Hd.
Qed.
Print Assumptions C101_inv.

(** Division is right whenever the divisor is a unit. *)
Theorem C101_div : forall m a b, 0 <= a < 2 ^ 32 -> 0 <= b < 2 ^ 32 -> Z.gcd b m = 1 ->
  let spec c := exists q, mi_div c a b = Ok q /\ 0 <= q < m /\ (m | q * b - a) in
  (1 <= m < 2 ^ 32 -> spec (static_ctx m false)) /\
  (prime m -> m < 2 ^ 31 -> spec (static_ctx m true)) /\
  (forall br, 2 <= m <= 2 ^ 31 -> set_modulus m = Ok br -> spec (dynamic_ctx br)).
Proof.
  intros m a b Ha Hb Hg spec.
  assert (G : forall c, 1 <= m < 2 ^ 32 -> mul_any m (mc_mul c) -> (exists y, mc_inv c b = Ok y /\ 0 <= y < m /\ (m | b * y - 1)) -> spec c).
  { intros c Hm Hmul (y & E & Hy & [k Hk]). unfold spec, mi_div. rewrite E. cbn [mbind res_bind]. rewrite Hmul by lia.
    eexists. split; [reflexivity|]. split; [apply Z.mod_pos_bound; lia|]. pose proof (Z.div_mod (a * y) m ltac:(lia)) as D.
    exists (a * k - a * y / m * b). set (q := a * y / m) in *. set (w := a * y mod m) in *.
    replace w with (a * y - m * q) by lia. replace ((a * y - m * q) * b - a) with (a * (b * y - 1) - q * b * m) by ring. rewrite Hk. ring. }
  destruct (C101_inv m b Hb) as (I1 & I2 & I3). split; [|split].
  - intros Hm. apply G; [exact Hm|apply static_mul_any; exact Hm|apply I1; assumption].
  - intros Hp Hm. pose proof (prime_ge_2 m Hp). apply G; [lia|apply static_mul_any; lia|]. apply I3; [exact Hp|exact Hm|].
    intros Hd. apply Z.divide_gcd_iff in Hd; [|lia]. rewrite Z.gcd_comm in Hg. lia.
  - intros br Hm E. apply G; [lia|apply (dynamic_mul_any m br); assumption|apply (I2 br); [lia|assumption|assumption]].
Qed.
Print Assumptions C101_div.

(** Expressions: with variables and raw values of any size, as long as the operands of + and - are reduced. *)
Theorem C101_expr : forall m env e, 2 <= m <= 2 ^ 31 -> uvalid m env e ->
  let spec c := exists v, meval c env e = Ok v /\ (m | mden (map Some env) e - v) /\ (settled m env e -> 0 <= v < m) in
  (forall hint, spec (static_ctx m hint)) /\ (forall br, set_modulus m = Ok br -> spec (dynamic_ctx br)).
Proof.
  intros m env e Hm He spec.
  assert (G : forall c, mc_m c = m -> mul_any m (mc_mul c) -> spec c).
  { intros c H1 H2. destruct (ueval_ok c m env e Hm H1 H2 He) as (v & E & Hv & Hd & Hs). exists v. split; [exact E|]. split; [exact Hd|]. intros S. specialize (Hs S). lia. }
  split.
  - intros hint. apply G; [reflexivity|apply static_mul_any; lia].
  - intros br E. apply G; [|apply (dynamic_mul_any m br); assumption]. rewrite barrett_of in E by lia. injection E as <-. reflexivity.
Qed.
Print Assumptions C101_expr.

(** set_modulus keeps the representatives of the values made before it; such values can still be multiplied, raised to powers,
    inverted and divided modulo the new modulus. *)
Theorem C101_stale : forall m br0 env e, 2 <= m <= 2 ^ 31 -> uvalid m env e ->
  exists br v, dstep (br0, env) (DSet m) = Ok (br, env, None) /\ dstep (br, env) (DLet e) = Ok (br, env ++ [v], Some v) /\
    (m | mden (map Some env) e - v) /\ (settled m env e -> 0 <= v < m).
Proof.
  intros m br0 env e Hm He. destruct (barrett_new_ok m ltac:(lia)) as (br & E & _). exists br.
  assert (Es : set_modulus m = Ok br) by (unfold set_modulus; destruct (Z.eqb_spec m 0); [lia|exact E]).
  destruct (proj2 (C101_expr m env e Hm He) br Es) as (v & Ev & Hd & Hs). exists v.
  cbn [dstep]. rewrite Es, Ev. cbn [mbind res_bind]. auto.
Qed.
Print Assumptions C101_stale.

(** Products of iterators. *)
Theorem C101_product : forall m l, Forall (fun x => 0 <= x < 2 ^ 32) l ->
  let spec c := exists p, mi_product c l = Ok p /\ mod_of (foldr Z.mul 1 l) m p in
  (forall hint, 2 <= m < 2 ^ 32 -> spec (static_ctx m hint)) /\
  (forall br, 2 <= m <= 2 ^ 31 -> set_modulus m = Ok br -> spec (dynamic_ctx br)).
Proof.
  intros m l Hl spec. split.
  - intros hint Hm. eexists. split; [apply (product_any m); [exact Hm|apply static_mul_any; lia|exact Hl]|apply mod_of_mod; lia].
  - intros br Hm E. eexists. split; [apply (product_any m); [lia|apply (dynamic_mul_any m br); assumption|exact Hl]|apply mod_of_mod; lia].
Qed.
Print Assumptions C101_product.

(** `==` compares representatives; after a multiplication by 1 it compares residues. *)
Theorem C101_equal : forall m a b, 0 <= a < 2 ^ 32 -> 0 <= b < 2 ^ 32 ->
  let spec c := exists x y, mc_mul c a 1 = Ok x /\ mc_mul c b 1 = Ok y /\ (mi_eq x y = true <-> (m | a - b)) in
  (forall hint, 1 <= m < 2 ^ 32 -> spec (static_ctx m hint)) /\
  (forall br, 2 <= m <= 2 ^ 31 -> set_modulus m = Ok br -> spec (dynamic_ctx br)).
Proof.
  intros m a b Ha Hb spec.
  assert (G : forall c, 1 <= m < 2 ^ 32 -> mul_any m (mc_mul c) -> spec c).
  { intros c Hm Hc. exists (a mod m), (b mod m). rewrite !Hc, !Z.mul_1_r by lia. split; [reflexivity|]. split; [reflexivity|].
    unfold mi_eq. rewrite Z.eqb_eq. split; intros H.
    - exists (a / m - b / m). pose proof (Z.div_mod a m ltac:(lia)). pose proof (Z.div_mod b m ltac:(lia)). lia.
    - destruct H as [k Hk]. replace a with (b + k * m) by lia. apply Z_mod_plus_full. }
  split.
  - intros hint Hm. apply G; [exact Hm|apply static_mul_any; exact Hm].
  - intros br Hm E. apply G; [lia|apply (dynamic_mul_any m br); assumption].
Qed.
Print Assumptions C101_equal.

Example C101_nonvacuous :
  (br ← set_modulus 7; mc_mul (dynamic_ctx br) (2 ^ 32 - 1) 10) = Ok 2 /\ (2 ^ 32 - 1) * 10 mod 7 = 2 /\
  (br ← set_modulus 1; mc_mul (dynamic_ctx br) 2 3) = Ok 7 /\
  (br ← set_modulus 4294967291; mc_mul (dynamic_ctx br) 2087680454 1326109914) = Ok 3818651290 /\ 2087680454 * 1326109914 mod 4294967291 = 3818651285 /\
  mi_add 7 13 0 = Ok 6 /\ mi_add 7 14 0 = Ok 7 /\ mi_sub 7 0 8 = Ok (2 ^ 32 - 1) /\ (0 - 8) mod 7 = 6 /\ (2 ^ 32 - 1) mod 7 = 3 /\
  mi_sub 8 0 9 = Ok (2 ^ 32 - 1) /\ (2 ^ 32 - 1) mod 8 = 7 /\ static_inv 61 true 122 = Ok 0 /\ static_inv 2 true 2 = Ok 1 /\ static_inv 61 false 122 = Panic /\
  mi_eq 10 3 = false /\ static_mul 7 10 1 = static_mul 7 3 1 /\
  (let e := MSub (MMul (MVar 0) (MRaw 9)) (MPow (MVar 0) 2) in
   uvalid 7 [10] e /\ meval (static_ctx 7 true) [10] e = Ok 4 /\ mden [Some 10] e = -10).
Proof.
  do 16 (split; [vm_compute; reflexivity|]). split; [vm_compute; reflexivity|]. cbv zeta. split; [|split; vm_compute; reflexivity].
  cbn [uvalid settled]. split; [split; [split|exact I]|split; [split|exact I]].
  - exists 10. split; [reflexivity|lia].
  - lia.
  - exists 10. split; [reflexivity|lia].
  - rewrite u64_range. lia.
Qed.
Close Scope Z_scope.
