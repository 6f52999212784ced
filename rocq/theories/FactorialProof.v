(** Proofs for src/math/factorial.rs. *)
From Coq Require Import ArithRing Znumtheory Zpow_facts Factorial.
From Verif Require Import Prelude IntModel NumProof IMathModel IMathSpec IMathProof IMathRoot ModIntModel ModIntSpec ModIntProof
  FactorialModel FactorialSpec.
Global Arguments fact : simpl never.

Lemma fact_S n : fact (S n) = S n * fact n.
Proof. reflexivity. Qed.

Lemma binom_gt n : forall k, n < k -> binom n k = 0.
Proof. induction n as [|n IH]; intros [|k] H; cbn; try lia. rewrite !IH by lia. reflexivity. Qed.

Lemma binom_fact n : forall k, k <= n -> binom n k * (fact k * fact (n - k)) = fact n.
Proof.
  induction n as [|n IH]; intros k Hk.
  - assert (k = 0) as -> by lia. reflexivity.
  - destruct k as [|k].
    + cbn [binom]. change (fact 0) with 1. rewrite Nat.sub_0_r. lia.
    + cbn [binom]. replace (S n - S k) with (n - k) by lia.
      pose proof (IH k ltac:(lia)) as H1.
      destruct (decide (k = n)) as [->|Hne].
      * rewrite (binom_gt n (S n)) by lia. rewrite Nat.add_0_r. rewrite !fact_S.
        rewrite Nat.sub_diag in *. change (fact 0) with 1 in *. nia.
      * pose proof (IH (S k) ltac:(lia)) as H2. rewrite !fact_S in *.
        replace (n - k) with (S (n - S k)) in * by lia. rewrite !fact_S in *.
        replace (S (n - S k)) with (n - k) in * by lia.
        assert (E : S n = S k + (n - k)) by lia. rewrite E at 1.
        set (b1 := binom n k) in *. set (b2 := binom n (S k)) in *. set (sk := S k) in *. set (d := n - k) in *.
        set (fk := fact k) in *. set (fn := fact (n - sk)) in *. set (F := fact n) in *.
        clearbody b1 b2 sk d fk fn F. clear -H1 H2. rewrite (Nat.mul_add_distr_r sk d F). rewrite <- H1 at 1. rewrite <- H2. ring.
Qed.

Lemma falling_fact n k : k <= n -> falling n k * fact (n - k) = fact n.
Proof.
  induction k as [|k IH]; intros Hk; cbn [falling].
  - rewrite Nat.sub_0_r. lia.
  - rewrite <- IH by lia. replace (n - k) with (S (n - S k)) by lia. rewrite fact_S. ring.
Qed.

Open Scope Z_scope.
Definition zfact (n : nat) : Z := Z.of_nat (fact n).
Lemma zfact_S n : zfact (S n) = Z.of_nat (S n) * zfact n.
Proof. unfold zfact. rewrite fact_S. lia. Qed.

Lemma fact_coprime p n : prime p -> Z.of_nat n < p -> rel_prime (zfact n) p.
Proof.
  intros Hp. induction n as [|n IH]; intros Hn.
  - change (zfact 0) with 1. apply rel_prime_1.
  - rewrite zfact_S. apply rel_prime_sym, rel_prime_mult; apply rel_prime_sym; [|apply IH; lia].
    apply rel_prime_le_prime; [exact Hp|lia].
Qed.

Lemma fact_divides p n : 1 <= p <= Z.of_nat n -> (p | zfact n).
Proof.
  induction n as [|n IH]; intros H; [lia|]. rewrite zfact_S.
  destruct (Z.eq_dec p (Z.of_nat (S n))) as [->|]; [apply Z.divide_factor_l|]. apply Z.divide_mul_r, IH. lia.
Qed.

Lemma usize_prim : usize ∈ prim_types.
Proof. unfold prim_types. repeat constructor. Qed.
Lemma i32_prim : i32 ∈ prim_types.
Proof. unfold prim_types. repeat constructor. Qed.

Section Fact.
  Context (c : modctx) (m : Z) (Hm : 1 <= m < 2 ^ 32) (Hc : ctx_ok c m).

  Lemma fc_mul a b : 0 <= a < m -> 0 <= b < m -> mc_mul c a b = Ok (a * b mod m).
  Proof. apply Hc. Qed.
  Lemma fc_m : mc_m c = m.
  Proof. apply Hc. Qed.
  Lemma fc_B z : 0 <= z mod m < m.
  Proof. apply Z.mod_pos_bound. lia. Qed.

  (** After the first loop. *)
  Lemma fac_table N : Z.of_nat N < 2 ^ 64 - 1 ->
    exists fac, (forall (k : list Z -> res factorial),
      (_ ← iadd usize (Z.of_nat N) 1; z ← mi_new (mc_m c) i32 0;
       one ← mi_new (mc_m c) i32 1; fac ← vset (replicate (N + 1) z) 0 one;
       fac ← rfor (range_incl 1 N) (fun i fac =>
         x ← vget fac (i - 1); k ← mi_new (mc_m c) usize (Z.of_nat i); p ← mc_mul c x k; vset fac i p) fac; k fac) = k fac) /\
      length fac = (N + 1)%nat /\ forall i, (i <= N)%nat -> fac !! i = Some (zfact i mod m).
  Proof.
    intros HN. rewrite fc_m.
    destruct (rfor_range_inv (fun i fac => length fac = (N + 1)%nat /\ forall j, (j < i)%nat -> fac !! j = Some (zfact j mod m))
      1 (N + 1) (fun i fac =>
         x ← vget fac (i - 1); k ← mi_new m usize (Z.of_nat i); p ← mc_mul c x k; vset fac i p) (<[0%nat := 1 mod m]> (replicate (N + 1) (0 mod m))))
      as (fac & Hf & Hlen & Hfac).
    - lia.
    - rewrite insert_length, replicate_length. split; [reflexivity|]. intros j Hj. assert (j = 0%nat) as -> by lia.
      apply list_lookup_insert. rewrite replicate_length. lia.
    - intros i fac Hi [Hlen Hfac].
      rewrite (vget_ok fac (i - 1) (zfact (i - 1) mod m)) by (apply Hfac; lia). cbn [mbind res_bind].
      rewrite new_ok by (try apply usize_prim; try lia; unfold usize; rewrite u64_range; lia). cbn [mbind res_bind].
      rewrite fc_mul by apply fc_B. cbn [mbind res_bind]. rewrite vset_ok by lia.
      eexists. split; [reflexivity|]. rewrite insert_length. split; [exact Hlen|]. intros j Hj.
      destruct (decide (j = i)) as [->|].
      + rewrite list_lookup_insert by lia. f_equal. rewrite <- Zmult_mod. f_equal.
        replace (zfact i) with (zfact (S (i - 1))) by (f_equal; lia). rewrite zfact_S. replace (S (i - 1)) with i by lia. ring.
      + rewrite list_lookup_insert_ne by lia. apply Hfac. lia.
    - exists fac. split; [|split; [exact Hlen|intros i Hi; apply Hfac; lia]]. intros k.
      rewrite iadd_ok by (unfold usize; rewrite u64_range; lia). cbn [mbind res_bind].
      rewrite !new_ok by (try apply i32_prim; try lia; rewrite i32_range; lia). cbn [mbind res_bind].
      rewrite vset_ok by (rewrite replicate_length; lia). cbn [mbind res_bind].
      unfold range_incl. replace (S N - 1)%nat with (N + 1 - 1)%nat by lia. rewrite Hf. reflexivity.
  Qed.

  Lemma factorial_new_ok N y : Z.of_nat N < 2 ^ 64 - 1 -> mc_inv c (zfact N mod m) = Ok y -> 0 <= y < m -> (m | zfact N mod m * y - 1) ->
    exists f, factorial_new c N = Ok f /\ length (fc_fac f) = (N + 1)%nat /\
      (forall i, (i <= N)%nat -> fc_fac f !! i = Some (zfact i mod m)) /\
      (forall i, (i <= N)%nat -> exists y, fc_inv f !! i = Some y /\ 0 <= y < m /\ (m | zfact i * y - 1)).
  Proof.
    intros HN Hy Hyr Hyd. destruct (fac_table N HN) as (fac & Hk & Hlen & Hfac). unfold factorial_new.
    destruct (rfor_rev_range_inv (fun i inv => length inv = (N + 1)%nat /\
        forall j, (i <= j <= N)%nat -> exists y, inv !! j = Some y /\ 0 <= y < m /\ (m | zfact j * y - 1))
      0 N (fun i inv => x ← vget inv (i + 1); k ← mi_new m usize (Z.of_nat (i + 1)); p ← mc_mul c x k; vset inv i p)
      (<[N := y]> (replicate (N + 1) (0 mod m)))) as (inv & Hi & Hil & Hinv).
    - lia.
    - rewrite insert_length, replicate_length. split; [reflexivity|]. intros j Hj. assert (j = N) as -> by lia.
      exists y. split; [apply list_lookup_insert; rewrite replicate_length; lia|]. split; [exact Hyr|].
      replace (zfact N * y - 1) with ((zfact N mod m * y - 1) + (zfact N - zfact N mod m) * y) by ring.
      apply Z.divide_add_r; [exact Hyd|]. apply Z.divide_mul_l. exists (zfact N / m). rewrite (Z.div_mod (zfact N) m) at 1 by lia. ring.
    - intros i inv Hi [Hil Hinv]. destruct (Hinv (i + 1)%nat) as (x & Ex & Hx & Hxd); [lia|].
      rewrite (vget_ok inv (i + 1) x Ex). cbn [mbind res_bind].
      rewrite new_ok by (try apply usize_prim; try lia; unfold usize; rewrite u64_range; lia). cbn [mbind res_bind].
      rewrite fc_mul by (assumption || apply fc_B). cbn [mbind res_bind]. rewrite vset_ok by lia.
      eexists. split; [reflexivity|]. rewrite insert_length. split; [exact Hil|]. intros j Hj.
      destruct (decide (j = i)) as [->|]; [|rewrite list_lookup_insert_ne by lia; apply Hinv; lia].
      rewrite list_lookup_insert by lia. eexists. split; [reflexivity|]. split; [apply fc_B|].
      rewrite Zmult_mod_idemp_r.
      apply Z.mod_divide; [lia|]. rewrite Zminus_mod, Zmult_mod_idemp_r, <- Zminus_mod. apply Z.mod_divide; [lia|].
      replace (zfact i * (x * Z.of_nat (i + 1)) - 1) with (zfact (i + 1) * x - 1); [exact Hxd|].
      replace (i + 1)%nat with (S i) by lia. rewrite zfact_S. ring.
    - exists (Factorial fac inv). split.
      + transitivity (x ← vget fac N; y ← mc_inv c x; inv ← vset (replicate (N + 1) (0 mod m)) N y;
          inv ← rfor (rev (range 0 N)) (fun i inv => x ← vget inv (i + 1); k ← mi_new m usize (Z.of_nat (i + 1)); p ← mc_mul c x k; vset inv i p) inv;
          Ok (Factorial fac inv)).
        * rewrite <- (Hk (fun fac => x ← vget fac N; y ← mc_inv c x; inv ← vset (replicate (N + 1) (0 mod m)) N y;
          inv ← rfor (rev (range 0 N)) (fun i inv => x ← vget inv (i + 1); k ← mi_new m usize (Z.of_nat (i + 1)); p ← mc_mul c x k; vset inv i p) inv;
          Ok (Factorial fac inv))).
          rewrite fc_m. rewrite !new_ok by (try apply i32_prim; try lia; rewrite i32_range; lia). reflexivity.
        * rewrite (vget_ok fac N (zfact N mod m)) by (apply Hfac; lia). cbn [mbind res_bind]. rewrite Hy. cbn [mbind res_bind].
          rewrite vset_ok by (rewrite replicate_length; lia). cbn [mbind res_bind]. unfold range. rewrite Hi. reflexivity.
      + cbn [fc_fac fc_inv]. split; [exact Hlen|]. split; [exact Hfac|]. intros i Hi'. apply Hinv. lia.
  Qed.

  Lemma factorial_new_panic N : Z.of_nat N < 2 ^ 64 - 1 -> mc_inv c (zfact N mod m) = Panic -> factorial_new c N = Panic.
  Proof.
    intros HN Hy. destruct (fac_table N HN) as (fac & Hk & Hlen & Hfac). unfold factorial_new.
    transitivity (x ← vget fac N; y ← mc_inv c x; inv ← vset (replicate (N + 1) (0 mod m)) N y;
      inv ← rfor (rev (range 0 N)) (fun i inv => x ← vget inv (i + 1); k ← mi_new m usize (Z.of_nat (i + 1)); p ← mc_mul c x k; vset inv i p) inv;
      Ok (Factorial fac inv)).
    - rewrite <- (Hk (fun fac => x ← vget fac N; y ← mc_inv c x; inv ← vset (replicate (N + 1) (0 mod m)) N y;
        inv ← rfor (rev (range 0 N)) (fun i inv => x ← vget inv (i + 1); k ← mi_new m usize (Z.of_nat (i + 1)); p ← mc_mul c x k; vset inv i p) inv;
        Ok (Factorial fac inv))).
      rewrite fc_m. rewrite !new_ok by (try apply i32_prim; try lia; rewrite i32_range; lia). reflexivity.
    - rewrite (vget_ok fac N (zfact N mod m)) by (apply Hfac; lia). cbn [mbind res_bind]. rewrite Hy. reflexivity.
  Qed.

  (** Quotients by units. *)
  Lemma cancel a b y z : (m | a * y - 1) -> b * a = z -> (z mod m * y) mod m = b mod m.
  Proof.
    intros [k Hk] <-. rewrite Zmult_mod_idemp_l.
    assert (E : b * a * y = b + (b * k) * m) by (rewrite <- (Z.mul_assoc b k m), <- Hk; ring). rewrite E. apply Z_mod_plus_full.
  Qed.

  Lemma choose_ok f N n k : length (fc_fac f) = (N + 1)%nat ->
    (forall i, (i <= N)%nat -> fc_fac f !! i = Some (zfact i mod m)) ->
    (forall i, (i <= N)%nat -> exists y, fc_inv f !! i = Some y /\ 0 <= y < m /\ (m | zfact i * y - 1)) ->
    (k <= n <= N)%nat ->
    choose c f n k = Ok (Z.of_nat (binom n k) mod m) /\ perm c f n k = Ok (Z.of_nat (falling n k) mod m).
  Proof.
    intros Hlen Hfac Hinv Hk. unfold choose, perm.
    destruct (Nat.leb_spec k n); [|lia]. destruct (Nat.ltb_spec n (length (fc_fac f))); [|lia]. cbn [rassert mbind res_bind].
    rewrite (vget_ok _ n (zfact n mod m)) by (apply Hfac; lia). cbn [mbind res_bind].
    destruct (Hinv (n - k)%nat) as (y1 & E1 & B1 & D1); [lia|]. destruct (Hinv k) as (y2 & E2 & B2 & D2); [lia|].
    rewrite (vget_ok _ _ _ E1). cbn [mbind res_bind]. rewrite fc_mul by (assumption || apply fc_B). cbn [mbind res_bind].
    assert (F1 : Z.of_nat (falling n k) * zfact (n - k) = zfact n) by (unfold zfact; rewrite <- Nat2Z.inj_mul, falling_fact by lia; reflexivity).
    rewrite (cancel _ _ y1 _ D1 F1). split; [|reflexivity].
    rewrite (vget_ok _ _ _ E2). cbn [mbind res_bind]. rewrite fc_mul by (assumption || apply fc_B).
    assert (F2 : Z.of_nat (binom n k) * zfact k = Z.of_nat (falling n k)).
    { unfold zfact. rewrite <- Nat2Z.inj_mul. f_equal.
      apply (Nat.mul_cancel_r _ _ (fact (n - k))); [apply fact_neq_0|].
      rewrite falling_fact by lia. rewrite <- Nat.mul_assoc. apply binom_fact. lia. }
    rewrite (cancel _ _ y2 _ D2 F2). reflexivity.
  Qed.
End Fact.

(** Either inverse path on a prime modulus. *)
Lemma static_inv_any p hint a : prime p -> p <= 2 ^ 31 -> 0 <= a < p ->
  (a <> 0 -> exists y, static_inv p hint a = Ok y /\ 0 <= y < p /\ (p | a * y - 1)) /\ (a = 0 -> static_inv p hint a = Panic).
Proof.
  intros Hp Hp31 Ha. pose proof (prime_ge_2 p Hp).
  assert (Hne : p <> 2 ^ 31).
  { intros E. assert (H2 : (2 | p)) by (rewrite E; exists (2 ^ 30); reflexivity).
    apply (prime_div_prime 2) in H2; [rewrite <- H2 in E; discriminate|apply prime_2|exact Hp]. }
  destruct hint; [apply static_inv_prime_ok; [exact Hp|rewrite i32_range; lia|exact Ha]|].
  destruct (inv_non_prime_ok p a) as [H1 H2]; [lia|exact Ha|]. cbn [static_inv]. split.
  - intros Hn. apply H1. apply Zgcd_1_rel_prime. apply rel_prime_le_prime; [exact Hp|lia].
  - intros ->. apply H2. rewrite Z.gcd_0_l. lia.
Qed.
Close Scope Z_scope.
