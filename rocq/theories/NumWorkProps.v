(** Property theorems on the number of steps of the number theory (C98). *)
From Coq Require Import Znumtheory.
From Verif Require Import Prelude Eff IntModel NumModel NumProof NumProps IMathModel ModIntModel GraphWorkSpec GraphWorkProof GraphFlowWorkProof NumWorkModel NumWorkSpec NumWorkProof NumWorkPrime.
Open Scope Z_scope.

(** C98: gcd and lcm make k divisions and ex_gcd is called k + 1 times, with the k of Lamé's theorem. *)
Theorem C98_euclid : forall T, In T prim_types -> forall a b, in_ty T a -> in_ty T b -> exists k,
  takes (gcdW T a b) (gcd T a b) k /\ takes (lcmW T a b) (lcm T a b) k /\ takes (ex_gcdW T a b) (ex_gcd T a b) (S k) /\
  (k <= euclid_most T)%nat /\
  ((2 <= k)%nat -> fib k <= Z.min (Z.abs a) (Z.abs b) /\ fib (S k) <= Z.max (Z.abs a) (Z.abs b)) /\
  ((1 <= k)%nat -> Z.abs b < Z.abs a -> fib (S k) <= Z.abs b /\ fib (S (S k)) <= Z.abs a).
Proof.
  intros T HT a b Ha Hb. destruct (euclid_takes T (prim_bits T HT) a b Ha Hb) as (k & Hk & H1 & H2 & H3). exists k.
  split_and!; [exact H1|exact H2|exact H3|apply (euc_most T k a b); assumption|apply lame_any; exact Hk|apply lame; exact Hk].
Qed.
Print Assumptions C98_euclid.

(** C98: neighbouring Fibonacci numbers need that many, and the worst pair of each type is one of them. *)
Theorem C98_euclid_worst : forall T, In T prim_types ->
  (forall k, (1 <= k)%nat -> fib (S k) <= it_max T -> takes (gcdW T (fib k) (fib (S k))) (Ok 1) k) /\
  exists a b, in_ty T a /\ in_ty T b /\ takes (gcdW T a b) (Ok 1) (euclid_most T).
Proof.
  intros T HT.
  assert (forall k, (1 <= k)%nat -> fib (S k) <= it_max T -> in_ty T (fib k) /\ in_ty T (fib (S k)) /\ takes (gcdW T (fib k) (fib (S k))) (Ok 1) k) as H.
  { intros k Hk Hm. pose proof (fib_nonneg k) as [F0 F1]. pose proof (fib_mono k). assert (it_min T <= 0) as H0.
    { unfold it_min. destruct (it_signed T); [pose proof (Z.pow_nonneg 2 (it_bits T - 1)); lia|lia]. }
    assert (in_ty T (fib k)) as I1 by (unfold in_ty; lia). assert (in_ty T (fib (S k))) as I2 by (unfold in_ty; lia). split; [exact I1|]. split; [exact I2|].
    destruct (euclid_takes T (prim_bits T HT) _ _ I1 I2) as (k' & Hk' & H1 & _). destruct k as [|k]; [lia|].
    assert (k' = S k) as -> by (eapply euc_unique; [apply euc_fib_swap|exact Hk']).
    destruct (C31_gcd T HT _ _ I1 I2) as (g & Eg & Hg & Hp); [intros (_ & [[_ E]|[E _]]); lia|].
    rewrite fib_gcd in Hg. specialize (Hp F0 F1). assert (g = 1) as -> by lia. rewrite Eg in H1. exact H1. }
  split; [intros k Hk Hm; apply H; assumption|]. destruct (most_bound T HT) as [_ Hm].
  exists (fib (euclid_most T)), (fib (S (euclid_most T))). apply H; [apply most_pos|exact Hm].
Qed.
Print Assumptions C98_euclid_worst.

Example C98_euclid_nonvacuous : gcdW i32 (-84) 36 5%nat = Ok (-12, 7%nat) /\ ex_gcdW i64 240 46 0%nat = Ok ((-9, 47, 2), 6%nat) /\
  lcmW u8 12 8 0%nat = Ok (24, 2%nat) /\ gcdW i8 55 89 0%nat = Ok (1, 10%nat) /\ gcdW i64 4660046610375530309 7540113804746346429 0%nat = Ok (1, 91%nat).
Proof. vm_compute. auto. Qed.

(** C98: inv_gcd makes as many turns as gcd(b, a mod b) makes divisions, at most 90. *)
Theorem C98_inv_gcd : forall a b, in_ty i64 a -> in_ty i64 b -> 1 <= b -> exists k,
  takes (gcdW i64 b (a mod b)) (gcd i64 b (a mod b)) k /\ takes (inv_gcdW a b) (inv_gcd a b) k /\ (k <= 90)%nat.
Proof.
  intros a b Ha Hb Hb1. destruct (inv_gcd_takes a b Ha Hb Hb1) as (k & Hk & H). exists k. pose proof (Z.mod_pos_bound a b ltac:(lia)) as B.
  assert (In i64 prim_types) as HT by (cbn; auto 8). assert (in_ty i64 (a mod b)) as Hr by (unfold in_ty, it_min, it_max in *; cbn in *; lia).
  destruct (euclid_takes i64 ltac:(cbn; lia) b (a mod b) Hb Hr) as (k' & Hk' & H1 & _). assert (k' = k) as -> by (eapply euc_unique; eassumption).
  split; [exact H1|]. split; [exact H|]. destruct (decide (k <= 90)%nat) as [|N]; [assumption|]. exfalso.
  destruct (lame k _ _ Hk ltac:(lia) ltac:(lia)) as [_ L]. assert (fib 93 <= fib (S (S k))) as L2 by (apply fib_le; lia). rewrite (fib_fast 93) in L2. vm_compute (fibp 93 (0, 1)) in L2. cbn [fst] in L2.
  unfold in_ty in Hb. change (it_max i64) with 9223372036854775807 in Hb. lia.
Qed.
Print Assumptions C98_inv_gcd.

Example C98_inv_gcd_nonvacuous : inv_gcdW (-5) 12 0%nat = Ok ((1, 7), 4%nat) /\ inv_gcdW 4660046610375530309 7540113804746346429 0%nat = Ok ((1, 4660046610375530309), 90%nat).
Proof. vm_compute. auto. Qed.

(** C98: pow_mod and pow multiply once per binary digit of the exponent and once more per one among them. *)
Theorem C98_pow : forall n, 0 <= n ->
  (forall x m, in_ty i64 n -> m <> 1 -> takes (pow_modW x n m) (pow_mod x n m) (bitlen n + ones n)) /\
  (forall mul x, in_ty u64 n -> takes (mi_powW mul x n) (mi_pow mul x n) (bitlen n + ones n)).
Proof.
  intros n Hn. split.
  - intros x m Hi Hm. pose proof (pow_mod_takes x n m Hn Hi) as H. rewrite (proj2 (Z.eqb_neq m 1) Hm) in H. exact H.
  - intros mul x Hi. apply mi_pow_takes. exact Hi.
Qed.
Print Assumptions C98_pow.

Example C98_pow_nonvacuous : pow_modW 3 13 1000 0%nat = Ok (323, 7%nat) /\ mi_powW (static_mul 1000) 3 13 0%nat = Ok (323, 7%nat) /\
  bitlen 13 = 4%nat /\ ones 13 = 3%nat /\ mi_powW (static_mul 7) 3 (2 ^ 64 - 1) 0%nat = Ok (6, 128%nat).
Proof. vm_compute. auto. Qed.

(** C98: is_prime: at most six products and halvings per binary digit; primitive_root of a prime: half a square root for the factors,
    and at most 20 powers for each candidate up to the answer; ex_crt: at most 92 calls of ex_gcd per congruence. *)
Theorem C98_is_prime : forall n, in_ty i32 n -> 0 <= n -> within (is_primeW n) (is_prime n) (6 * bitlen n).
Proof. intros n Hn H0. apply costs_within with (q := fun _ => 0%nat). apply is_prime_cost; assumption. Qed.
Print Assumptions C98_is_prime.

Theorem C98_primitive_root : forall m, in_ty i32 m -> prime m -> exists g, primitive_root m = Ok g /\
  within (primitive_rootW m) (primitive_root m)
    (bitlen (m / 2) + Z.to_nat ((Z.sqrt (m / 2) + 1) / 2) + Z.to_nat (g - 1) * (20 * (2 * bitlen m))).
Proof.
  intros m Hm Hp. destruct (primitive_root_cost m Hm Hp) as (g & E & _ & H). exists g. split; [exact E|]. intros w. rewrite E. exact (H w).
Qed.
Print Assumptions C98_primitive_root.

Theorem C98_ex_crt : forall a b m, Forall (in_ty i64) m -> within (ex_crtW a b m) (ex_crt a b m) (92 * length a).
Proof.
  intros a b m Hm. apply costs_within with (q := fun _ => 0%nat). apply ex_crt_calls. intros i x Hx. rewrite Forall_lookup in Hm. eapply Hm. exact Hx.
Qed.
Print Assumptions C98_ex_crt.

Example C98_prime_nonvacuous : is_primeW 2147483647 0%nat = Ok (true, 181%nat) /\ primitive_rootW 41 0%nat = Ok (6, 48%nat) /\
  ex_crtW [1; 1] [2; 3] [3; 5] 0%nat = Ok (Some (8, 15), 8%nat).
Proof. vm_compute. auto. Qed.
Close Scope Z_scope.
