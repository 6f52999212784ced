(** Properties C41-C48: src/misc/modint.rs and src/math/factorial.rs *)
From Coq Require Import Znumtheory Zpow_facts.
From Verif Require Import Prelude IntModel NumProof IMathModel IMathSpec IMathProof IMathRoot
  ModIntModel ModIntSpec ModIntProof FactorialModel FactorialSpec FactorialProof.
Open Scope Z_scope.

(** C41: binomials and falling factorials modulo a prime, for both inverse paths. *)
Theorem C41_factorial : forall p hint N, prime p -> p <= 2 ^ 31 -> Z.of_nat N < 2 ^ 64 - 1 ->
  (Z.of_nat N < p -> exists f, factorial_new (static_ctx p hint) N = Ok f /\
     (forall n k, (k <= n <= N)%nat ->
        (exists v, choose (static_ctx p hint) f n k = Ok v /\ mod_of (Z.of_nat (binom n k)) p v) /\
        (exists v, perm (static_ctx p hint) f n k = Ok v /\ mod_of (Z.of_nat (falling n k)) p v)) /\
     (forall n k, (n < k)%nat \/ (N < n)%nat ->
        choose (static_ctx p hint) f n k = Panic /\ perm (static_ctx p hint) f n k = Panic)) /\
  (p <= Z.of_nat N -> factorial_new (static_ctx p hint) N = Panic).
Proof.
  intros p hint N Hp Hp31 HN. pose proof (prime_ge_2 p Hp).
  assert (Hc : ctx_ok (static_ctx p hint) p) by (apply static_ctx_ok; lia).
  destruct (static_inv_any p hint (zfact N mod p) Hp Hp31) as [Hunit Hzero]; [apply Z.mod_pos_bound; lia|].
  split.
  - intros HNp. destruct Hunit as (y & Ey & By & Dy).
    { intros E. apply Z.mod_divide in E; [|lia]. pose proof (fact_coprime p N Hp HNp) as Hr.
      assert (H1 : (p | 1)). { apply Gauss with (zfact N); [rewrite Z.mul_1_r; exact E|apply rel_prime_sym; exact Hr]. }
      apply Z.divide_1_r_nonneg in H1; lia. }
    destruct (factorial_new_ok (static_ctx p hint) p ltac:(lia) Hc N y HN Ey By Dy) as (f & Ef & Hlen & Hfac & Hinv).
    exists f. split; [exact Ef|]. split.
    + intros n k Hk. destruct (choose_ok (static_ctx p hint) p ltac:(lia) Hc f N n k Hlen Hfac Hinv Hk) as [-> ->].
      split; eexists; (split; [reflexivity|apply mod_of_mod; lia]).
    + intros n k Hnk. unfold choose, perm. destruct (Nat.leb_spec k n); [|split; reflexivity].
      destruct (Nat.ltb_spec n (length (fc_fac f))); [lia|]. split; reflexivity.
  - intros HNp. apply (factorial_new_panic (static_ctx p hint) p ltac:(lia) Hc N HN). apply Hzero.
    apply Z.mod_divide; [lia|]. apply fact_divides. lia.
Qed.
Print Assumptions C41_factorial.

Example C41_nonvacuous : (f ← factorial_new (static_ctx 7 true) 6; choose (static_ctx 7 true) f 6 2) = Ok 1 /\
  (f ← factorial_new (static_ctx 7 false) 6; perm (static_ctx 7 false) f 6 2) = Ok 2 /\
  factorial_new (static_ctx 7 true) 7 = Panic /\ Z.of_nat (binom 6 2) = 15.
Proof. repeat split; vm_compute; reflexivity. Qed.

(** C42: every expression over StaticModInt (any nesting of new, raw, default, +, -, *, unary -, mixed-integer forms;
    the assigning forms are the same operations) evaluates without panic to the residue of the integer it denotes. *)
Theorem C42_static_ring : forall m hint env senv e, 1 <= m <= 2 ^ 31 -> 
  (forall i z, senv !! i = Some (Some z) -> exists v, env !! i = Some v /\ mod_of z m v) ->
  mvalid m senv e ->
  exists v, meval (static_ctx m hint) env e = Ok v /\ mod_of (mden senv e) m v.
Proof.
  intros m hint env senv e Hm Henv Hv. exists (mden senv e mod m). split; [|apply mod_of_mod; lia].
  apply meval_ok; [exact Hm|apply static_ctx_ok; lia| |exact Hv].
  intros i z Hi. destruct (Henv i z Hi) as (v & E & Hmod). apply mod_of_eq in Hmod; [|lia]. congruence.
Qed.
Print Assumptions C42_static_ring.

Example C42_nonvacuous :
  let e := MSub (MMul (MVar 0) (MNeg (MAddInt (MRaw 6) i64 (-9)))) (MNew u128 100) in
  mvalid 7 [Some 12] e /\ mden [Some 12] e = -64 /\ meval (static_ctx 7 false) [5] e = Ok 6 /\ -64 mod 7 = 6.
Proof.
  cbv zeta. split; [|vm_compute; auto]. cbn [mvalid].
  split; [split; [exists 12; reflexivity|]|]; repeat split; try lia; try (unfold prim_types; repeat constructor); vm_compute; congruence.
Qed.

(** The bound 2^31 is needed: above it addition overflows and subtraction is silently wrong. *)
Example C42_bound_needed : mi_add (2 ^ 32 - 1) (2 ^ 31) (2 ^ 31) = Panic /\
  mi_sub (2 ^ 32 - 1) 0 (2 ^ 32 - 3) = Ok 3 /\ (0 - (2 ^ 32 - 3)) mod (2 ^ 32 - 1) = 2.
Proof. repeat split; vm_compute; reflexivity. Qed.

(** What does happen above 2^31: products stay right, sums panic as soon as they reach 2^32, and a difference is wrong, without
    a panic, exactly when b exceeds a by more than 2^32 - m. *)
Theorem C42_large_modulus : forall m a b, 2 ^ 31 < m < 2 ^ 32 -> 0 <= a < m -> 0 <= b < m ->
  (exists v, static_mul m a b = Ok v /\ mod_of (a * b) m v) /\
  (a + b < 2 ^ 32 -> exists v, mi_add m a b = Ok v /\ mod_of (a + b) m v) /\
  (2 ^ 32 <= a + b -> mi_add m a b = Panic) /\
  exists v, mi_sub m a b = Ok v /\ (mod_of (a - b) m v <-> b - a <= 2 ^ 32 - m).
Proof.
  intros m a b Hm Ha Hb. split; [|split; [|split]].
  - exists (a * b mod m). split; [apply (static_mul_ok m); lia|apply mod_of_mod; lia].
  - intros Hab. unfold mi_add, iadd. rewrite (chk_ok u32) by (rewrite u32_range; lia). cbn [mbind res_bind].
    destruct (m <=? a + b) eqn:E; [apply Z.leb_le in E|apply Z.leb_gt in E].
    + unfold isub. rewrite (chk_ok u32) by (rewrite u32_range; lia). exists (a + b - m). split; [reflexivity|]. split; [lia|]. exists 1. lia.
    + exists (a + b). split; [reflexivity|]. split; [lia|]. exists 0. lia.
  - intros Hab. unfold mi_add, iadd. rewrite (chk_panic u32) by (rewrite u32_range; lia). reflexivity.
  - unfold mi_sub. destruct (Z_lt_le_dec a b) as [Hlt|Hle].
    + assert (Ew : wrap u32 (a - b) = a - b + 2 ^ 32).
      { rewrite wrap_u32. symmetry. apply (Z.mod_unique _ _ (-1)); lia. }
      rewrite Ew. destruct (m <=? a - b + 2 ^ 32) eqn:E; [apply Z.leb_le in E|apply Z.leb_gt in E].
      * assert (wrap u32 (a - b + 2 ^ 32 + m) = a - b + m) as -> by (rewrite wrap_u32; symmetry; apply (Z.mod_unique _ _ 1); lia).
        eexists. split; [reflexivity|]. split; [lia|]. intros _. split; [lia|]. exists (-1). lia.
      * eexists. split; [reflexivity|]. split; [|lia]. intros [_ [k Hk]]. exfalso. assert (k * m = - 2 ^ 32) as Hk' by lia. clear - Hm Hk'. change (2 ^ 31) with 2147483648 in *. change (2 ^ 32) with 4294967296 in *.
        destruct (Z_le_gt_dec k (-2)); nia.
    + rewrite wrap_u32, Z.mod_small by lia. destruct (m <=? a - b) eqn:E; [apply Z.leb_le in E; lia|].
      eexists. split; [reflexivity|]. split; [lia|]. intros _. split; [lia|]. exists 0. lia.
Qed.
Print Assumptions C42_large_modulus.
Example C42_large_nonvacuous : mi_sub (2 ^ 32 - 5) 3 8 = Ok (2 ^ 32 - 10) /\ mi_sub (2 ^ 32 - 5) 3 9 = Ok (2 ^ 32 - 6) /\
  (3 - 9) mod (2 ^ 32 - 5) = 2 ^ 32 - 11 /\ mi_add (2 ^ 32 - 5) (2 ^ 31) (2 ^ 31 - 1) = Ok 4.
Proof. repeat split; vm_compute; reflexivity. Qed.

(** C43: new is the Euclidean remainder for all 12 primitive types. *)
Theorem C43_new : forall T v m, T ∈ prim_types -> in_ty T v -> 1 <= m < 2 ^ 32 ->
  exists r, mi_new m T v = Ok r /\ mod_of v m r.
Proof.
  intros T v m HT Hv Hm. exists (v mod m). split; [apply new_ok; assumption|apply mod_of_mod; lia].
Qed.
Print Assumptions C43_new.

Example C43_nonvacuous : mi_new 7 i8 (-128) = Ok 5 /\ mi_new 7 u128 (2 ^ 128 - 1) = Ok 3 /\ mi_new (2 ^ 32 - 1) i128 (- 2 ^ 127) = Ok (2 ^ 31 - 1) /\
  mi_new 7 i64 (- 2 ^ 63) = Ok 6.
Proof. repeat split; vm_compute; reflexivity. Qed.

(** C44 as stated is false: modulo 1 the zeroth power is stored as 1. *)
Theorem C44_pow_refuted : exists m x n v, 1 <= m <= 2 ^ 31 /\ 0 <= x < m /\ in_ty u64 n /\
  mi_pow (static_mul m) x n = Ok v /\ ~ mod_of (x ^ n) m v.
Proof.
  exists 1, 0, 0, 1. split; [lia|]. split; [lia|]. split; [rewrite u64_range; lia|]. split; [vm_compute; reflexivity|].
  intros [H _]. lia.
Qed.
Print Assumptions C44_pow_refuted.

(** C44 otherwise: for m >= 2 or n > 0, both types. *)
Theorem C44_pow_partial : forall m x n, in_ty u64 n -> 0 <= x < m -> 2 <= m \/ 0 < n ->
  (forall hint, 1 <= m < 2 ^ 32 -> exists v, mi_pow (mc_mul (static_ctx m hint)) x n = Ok v /\ mod_of (x ^ n) m v) /\
  (forall br, 1 <= m <= 2 ^ 31 -> set_modulus m = Ok br -> exists v, mi_pow (mc_mul (dynamic_ctx br)) x n = Ok v /\ mod_of (x ^ n) m v).
Proof.
  intros m x n Hn Hx Hc. split.
  - intros hint Hm. exists (x ^ n mod m). split; [|apply mod_of_mod; lia]. apply (pow_ok m); try assumption; [lia|].
    apply static_mul_ok. exact Hm.
  - intros br Hm E. unfold set_modulus in E. destruct (Z.eqb_spec m 0); [lia|].
    exists (x ^ n mod m). split; [|apply mod_of_mod; lia]. apply (pow_ok m); try assumption; [lia|].
    apply dynamic_mul_ok; assumption.
Qed.
Print Assumptions C44_pow_partial.

Example C44_nonvacuous : mi_pow (static_mul 1000000007) 3 5 = Ok 243 /\ mi_pow (static_mul 11) 3 (2 ^ 64 - 1) = Ok (3 ^ 5 mod 11).
Proof. split; vm_compute; reflexivity. Qed.
Example C44_nonvacuous_dyn : (br ← set_modulus (2 ^ 31); mi_pow (mc_mul (dynamic_ctx br)) 3 4) = Ok 81.
Proof. vm_compute. reflexivity. Qed.

(** C45 as stated ("every modulus") is false: with the prime hint and VALUE >= 2^31 the debug assertion's conversion to i32 panics. *)
Theorem C45_inv_refuted : exists m a, 1 <= m < 2 ^ 32 /\ 0 <= a < m /\ Z.gcd a m = 1 /\ static_inv m true a = Panic.
Proof. exists 4294967291, 1. split; [lia|]. split; [lia|]. split; [reflexivity|]. vm_compute. reflexivity. Qed.
Print Assumptions C45_inv_refuted.

(** It does so for every VALUE >= 2^31, prime or not, and every operand. *)
Theorem C45_large_value : forall m a, 2 ^ 31 <= m < 2 ^ 32 -> static_inv m true a = Panic.
Proof. intros m a Hm. unfold static_inv. destruct (a =? 0); [reflexivity|]. rewrite (chk_panic i32) by (rewrite i32_range; lia). reflexivity. Qed.
Print Assumptions C45_large_value.
(** C45 otherwise: inv and division on the Fermat path (prime below 2^31) and on the extended-gcd path (any u32 modulus >= 1). *)
Theorem C45_inv_partial : forall m a, 1 <= m < 2 ^ 32 -> 0 <= a < m ->
  let spec inv :=
    (Z.gcd a m = 1 -> exists y, inv a = Ok y /\ 0 <= y < m /\ (m | a * y - 1)) /\ (Z.gcd a m <> 1 -> inv a = Panic) in
  let div_spec c :=
    forall b, 0 <= b < m -> (Z.gcd a m = 1 -> exists q, mi_div c b a = Ok q /\ 0 <= q < m /\ (m | q * a - b)) /\
      (Z.gcd a m <> 1 -> mi_div c b a = Panic) in
  (prime m -> m < 2 ^ 31 -> spec (mc_inv (static_ctx m true)) /\ div_spec (static_ctx m true)) /\
  (spec (mc_inv (static_ctx m false)) /\ div_spec (static_ctx m false)) /\
  (m <= 2 ^ 31 -> forall br, set_modulus m = Ok br -> spec (mc_inv (dynamic_ctx br)) /\ div_spec (dynamic_ctx br)).
Proof.
  intros m a Hm Ha spec div_spec.
  assert (D : forall c, mul_ok m (mc_mul c) -> spec (mc_inv c) -> div_spec c).
  { intros c Hmul [H1 H2] b Hb. split.
    - intros Hg. apply (mi_div_ok c m); try assumption; [lia|]. apply H1, Hg.
    - intros Hg. unfold mi_div. rewrite H2 by exact Hg. reflexivity. }
  split; [|split].
  - intros Hp H31. assert (Hs : spec (mc_inv (static_ctx m true))).
    { destruct (static_inv_prime_ok m a Hp) as [H1 H2]; [rewrite i32_range; lia|exact Ha|]. unfold spec. cbn [mc_inv static_ctx].
      pose proof (prime_ge_2 m Hp). split; intros Hg.
      - apply H1. intros ->. rewrite Z.gcd_0_l in Hg. lia.
      - apply H2. destruct (Z.eq_dec a 0) as [|Hn]; [assumption|]. exfalso. apply Hg.
        apply Zgcd_1_rel_prime, rel_prime_le_prime; [exact Hp|lia]. }
    split; [exact Hs|]. apply D; [apply static_mul_ok; exact Hm|exact Hs].
  - assert (Hs : spec (mc_inv (static_ctx m false))) by (apply inv_non_prime_ok; assumption).
    split; [exact Hs|]. apply D; [apply static_mul_ok; exact Hm|exact Hs].
  - intros H31 br E. unfold set_modulus in E. destruct (Z.eqb_spec m 0); [lia|].
    assert (Hs : spec (mc_inv (dynamic_ctx br))).
    { unfold spec. cbn [mc_inv dynamic_ctx]. destruct (barrett_new_ok m) as (br' & E' & Eu); [lia|].
      replace (barrett_umod br) with m by congruence. apply inv_non_prime_ok; assumption. }
    split; [exact Hs|]. apply D; [apply dynamic_mul_ok; [lia|exact E]|exact Hs].
Qed.
Print Assumptions C45_inv_partial.

Example C45_nonvacuous : prime 61 /\ static_inv 61 true 2 = Ok 31 /\ static_inv 10 false 3 = Ok 7 /\ static_inv 10 false 4 = Panic /\
  static_inv 61 true 0 = Panic /\ mi_div (static_ctx 10 false) 9 3 = Ok 3.
Proof. split; [apply prime_61|]. repeat split; vm_compute; reflexivity. Qed.

(** C46: a single-threaded program over DynamicModInt computes modulo the last modulus set. *)
Theorem C46_dynamic : forall ops outs, dspec_run (998244353, []) ops outs ->
  exists br, default_barrett = Ok br /\ drun (br, []) ops = Ok outs.
Proof.
  intros ops outs H. destruct (barrett_new_ok 998244353) as (br & E & _); [lia|]. exists br. split; [exact E|].
  apply (drun_ok 998244353 br [] []); try assumption; [lia|reflexivity|]. intros i z Hi. discriminate.
Qed.
Print Assumptions C46_dynamic.

Theorem C46_set_modulus_zero : forall s, dstep s (DSet 0) = Panic.
Proof. intros [br env]. reflexivity. Qed.
Print Assumptions C46_set_modulus_zero.

Example C46_nonvacuous :
  dspec_run (998244353, []) [DModulus; DSet 10; DLet (MNew i32 (-3)); DInv 0; DModulus; DSet 7; DLet (MSub (MRaw 2) (MNew i32 5)); DDiv 2 2]
    [Some 998244353; None; Some 7; Some 3; Some 10; None; Some 4; Some 1].
Proof.
  eapply dr_cons; [apply ds_modulus|]. eapply dr_cons; [apply ds_set; lia|].
  eapply dr_cons. { apply ds_let; [split; [unfold prim_types; repeat constructor|rewrite i32_range; lia]|]. split; [lia|]. exists (-1). reflexivity. }
  eapply dr_cons. { eapply ds_inv; [reflexivity|split; [lia|exists 0; reflexivity]|]. exists (-1). reflexivity. }
  eapply dr_cons; [apply ds_modulus|]. eapply dr_cons; [apply ds_set; lia|].
  eapply dr_cons. { apply ds_let; [split; [cbn; lia|split; [unfold prim_types; repeat constructor|rewrite i32_range; lia]]|]. split; [lia|]. exists (-1). reflexivity. }
  eapply dr_cons. { eapply ds_div; [reflexivity|reflexivity|reflexivity|split; [lia|exists 0; reflexivity]|]. exists 0. reflexivity. }
  apply dr_nil.
Qed.

(** C47 as stated is false: the two stores of `update` can be observed half done; the product is then not even below the modulus. *)
Theorem C47_atomic_refuted : exists m1 m2 a b sched v, 1 <= m1 <= 2 ^ 31 /\ 1 <= m2 <= 2 ^ 31 /\ 0 <= a < Z.min m1 m2 /\ 0 <= b < Z.min m1 m2 /\
  merge [StoreM; StoreIm] [LoadM; LoadIm] sched /\ brun m1 m2 a b sched = Ok v /\ ~ mod_of (a * b) m1 v /\ ~ mod_of (a * b) m2 v.
Proof.
  exists 7, 5, 2, 3, [StoreM; LoadM; LoadIm; StoreIm], 11. split; [lia|]. split; [lia|]. split; [lia|]. split; [lia|].
  split; [apply merge_l, merge_r, merge_r, merge_l, merge_nil|]. split; [vm_compute; reflexivity|].
  split; intros [H _]; lia.
Qed.
Print Assumptions C47_atomic_refuted.

(** C47 otherwise: if each load falls on the same side of its store, the product is right for that modulus. *)
Theorem C47_atomic_partial : forall m1 m2 a b sched, 1 <= m1 <= 2 ^ 31 -> 1 <= m2 <= 2 ^ 31 ->
  0 <= a < Z.min m1 m2 -> 0 <= b < Z.min m1 m2 ->
  merge [StoreM; StoreIm] [LoadM; LoadIm] sched ->
  before LoadM StoreM sched = before LoadIm StoreIm sched ->
  exists v, brun m1 m2 a b sched = Ok v /\ mod_of (a * b) (if before LoadM StoreM sched then m1 else m2) v.
Proof.
  intros m1 m2 a b sched H1 H2 Ha Hb Hm Hagree. unfold brun.
  destruct (barrett_ok m1 a b) as (b1 & E1 & U1 & M1); [lia..|]. destruct (barrett_ok m2 a b) as (b2 & E2 & U2 & M2); [lia..|].
  rewrite E1, E2. cbn [mbind res_bind]. unfold barrett_mul in *.
  assert (K : sched ∈ [[StoreM; StoreIm; LoadM; LoadIm]; [StoreM; LoadM; StoreIm; LoadIm]; [StoreM; LoadM; LoadIm; StoreIm];
    [LoadM; StoreM; StoreIm; LoadIm]; [LoadM; StoreM; LoadIm; StoreIm]; [LoadM; LoadIm; StoreM; StoreIm]]).
  { repeat match goal with H : merge _ _ _ |- _ => inversion H; subst; clear H end; repeat constructor. }
  repeat (apply elem_of_cons in K as [->|K]); [..|inversion K]; vm_compute in Hagree; try discriminate Hagree;
    cbn [foldl bexec bs_m bs_im bs_lm bs_lim runwrap mbind res_bind];
    match goal with |- context [before ?x ?y ?l] => let t := eval vm_compute in (before x y l) in change (before x y l) with t end; cbv iota.
  - exists (a * b mod m2). split; [exact M2|apply mod_of_mod; lia].
  - exists (a * b mod m2). split; [exact M2|apply mod_of_mod; lia].
  - exists (a * b mod m1). split; [exact M1|apply mod_of_mod; lia].
  - exists (a * b mod m1). split; [exact M1|apply mod_of_mod; lia].
Qed.
Print Assumptions C47_atomic_partial.

Example C47_nonvacuous : before LoadM StoreM [LoadM; StoreM; LoadIm; StoreIm] = true /\ before LoadIm StoreIm [LoadM; StoreM; LoadIm; StoreIm] = true /\
  brun 7 5 4 3 [LoadM; StoreM; LoadIm; StoreIm] = Ok 5 /\ brun 7 5 4 3 [StoreM; LoadM; StoreIm; LoadIm] = Ok 2.
Proof. repeat split; vm_compute; reflexivity. Qed.

(** C48: sum and product, any order, both types. *)
Theorem C48_sum_product : forall m l l', 2 <= m <= 2 ^ 31 -> Forall (fun x => 0 <= x < m) l -> Permutation l l' ->
  let spec c := (exists s, mi_sum c l' = Ok s /\ mod_of (foldr Z.add 0 l) m s) /\
                (exists p, mi_product c l' = Ok p /\ mod_of (foldr Z.mul 1 l) m p) in
  (forall hint, spec (static_ctx m hint)) /\ (forall br, set_modulus m = Ok br -> spec (dynamic_ctx br)).
Proof.
  intros m l l' Hm Hl Hperm spec.
  assert (G : forall c, ctx_ok c m -> spec c).
  { intros c [Hcm Hmul]. assert (Hl' : Forall (fun x => 0 <= x < m) l') by (rewrite <- Hperm; exact Hl). split.
    - rewrite (sum_ok m) by (assumption || lia). eexists. split; [reflexivity|].
      replace (foldr Z.add 0 l) with (foldr Z.add 0 l') by (symmetry; clear -Hperm; induction Hperm; cbn [foldr]; lia). apply mod_of_mod. lia.
    - rewrite (product_ok m) by (assumption || lia). eexists. split; [reflexivity|].
      replace (foldr Z.mul 1 l) with (foldr Z.mul 1 l') by (symmetry; clear -Hperm; induction Hperm; cbn [foldr]; nia). apply mod_of_mod. lia. }
  split.
  - intros hint. apply G, static_ctx_ok. lia.
  - intros br E. unfold set_modulus in E. destruct (Z.eqb_spec m 0); [lia|]. apply G, dynamic_ctx_ok; [lia|exact E].
Qed.
Print Assumptions C48_sum_product.

Example C48_nonvacuous : mi_sum (static_ctx 7 true) [3; 6; 5] = Ok 0 /\ (br ← set_modulus 7; mi_product (dynamic_ctx br) [3; 6; 5]) = Ok 6 /\
  mi_product (static_ctx 1 false) [] = Ok 1.
Proof. repeat split; vm_compute; reflexivity. Qed.
Close Scope Z_scope.
