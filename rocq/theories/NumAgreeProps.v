(** C117: the number-theoretic functions agree with each other. *)
From Coq Require Import Znumtheory Zpow_facts.
From Verif Require Import Prelude NumTheory IntModel NumModel NumSpec NumProof NumProps IMathModel IMathSpec IMathProof IMathRoot IMathProps
  ModIntModel ModIntSpec ModIntProof FactorialModel FactorialSpec FactorialProof ModIntProps NumAgreeSpec NumAgreeProof.
Open Scope Z_scope.

(** Six ways to invert a modulo a prime m give the same number: inv_gcd, pow_mod with exponent m - 2, ex_gcd (up to the sign of its
    gcd), ex_crt, and inv of StaticModInt (with and without the prime hint) and DynamicModInt. *)
Theorem C117_inverse : forall m a, prime m -> in_ty i32 m -> 0 <= a < 2 ^ 63 - 1 -> ~ (m | a) ->
  exists x, inv_gcd a m = Ok (1, x) /\ 0 <= x < m /\ (m | a * x - 1) /\ pow_mod a (m - 2) m = Ok x /\
    (exists u v, ex_gcd i64 a m = Ok (u, v, 1) /\ mod_of u m x) /\
    ex_crt [a] [1] [m] = Ok (Some (x, m)) /\
    (forall hint, static_inv m hint (a mod m) = Ok x) /\
    (forall br, set_modulus m = Ok br -> mc_inv (dynamic_ctx br) (a mod m) = Ok x).
Proof.
  intros m a Hp Hm Ha Hn. pose proof (prime_ge_2 m Hp) as H2. pose proof Hm as Hm'. rewrite i32_range in Hm'.
  assert (Hm64 : in_ty i64 m) by (rewrite i64_range; lia). assert (Ha64 : in_ty i64 a) by (rewrite i64_range; lia).
  assert (G : Z.gcd a m = 1) by (rewrite Z.gcd_comm; apply Zgcd_1_rel_prime, prime_rel_prime; assumption).
  destruct (C39_inv_gcd a m Ha64 Hm64 ltac:(lia)) as (g & x & E & -> & D & B). rewrite G in *. rewrite Z.div_1_r in B.
  exists x. split; [exact E|]. split; [exact B|]. split; [exact D|].
  assert (U : forall y, 0 <= y < m -> (m | a * y - 1) -> y = x) by (intros y Hy Dy; apply (inv_unique m a y x); assumption).
  assert (U' : forall y, 0 <= y < m -> (m | (a mod m) * y - 1) -> y = x).
  { intros y Hy [k Hk]. apply U; [exact Hy|]. exists (k + a / m * y). pose proof (Z.div_mod a m ltac:(lia)). nia. }
  split.
  { destruct (C37_pow_mod a (m - 2) m) as (v & Ev & Hv); [exact Ha64|rewrite i64_range; lia|lia|exact Hm|lia|]. rewrite Ev. f_equal. pose proof (mod_of_eq (a ^ (m - 2)) m v ltac:(lia) Hv) as Hve.
    apply U; [apply Hv|]. rewrite Hve. apply Z.mod_divide; [lia|]. rewrite Zminus_mod, Zmult_mod_idemp_r, <- Z.pow_succ_r by lia.
    replace (Z.succ (m - 2)) with (m - 1) by lia. rewrite (fermat_Z m a Hp Hn), (Z.mod_small 1) by lia. reflexivity. }
  split.
  { destruct (C33_ex_gcd i64 ltac:(cbn; tauto) eq_refl a m Ha64 Hm64) as (u & v & g & Eg & Bz & Hg & Hpos & _); [cbn; lia|]. specialize (Hpos ltac:(lia) ltac:(lia)). rewrite G in Hg.
    assert (Hg1 : g = 1) by lia. rewrite Hg1 in Eg, Bz. exists u, v. split; [exact Eg|]. split; [exact B|].
    assert (Du : (m | a * (u - x))). { replace (a * (u - x)) with ((1 - (a * x - 1) - 1) + m * (- v)) by lia. apply Z.divide_add_r; [|exists (- v); lia]. destruct D as [k Hk]. exists (- k). lia. }
    apply prime_mult in Du as [Du|Du]; [contradiction|exact Du|exact Hp]. }
  split.
  { destruct (C34_ex_crt_total_partial [a] [1] [m]) as (o & Eo & Ho).
    - reflexivity.
    - reflexivity.
    - intros [|i] z; cbn; [intros [= <-]; auto with lia|destruct i; discriminate].
    - intros [|i] z; cbn; [intros [= <-]; auto with lia|destruct i; discriminate].
    - intros [|i] ai bi; cbn; [intros [= <-] [= <-]; lia|destruct i; discriminate].
    - cbn. rewrite Z.lcm_1_r. lia.
    - rewrite Eo. f_equal. apply (crt_unique [a] [1] [m] [a] [1] [m]); [reflexivity|exact Ho|]. cbn. split; [exact B|]. intros y. split.
      + intros H. specialize (H 0%nat a 1 m eq_refl eq_refl eq_refl).
        assert (Dy : (m | a * (y - x))). { replace (a * (y - x)) with ((a * y - 1) - (a * x - 1)) by lia. apply Z.divide_sub_r; assumption. }
        apply prime_mult in Dy as [Dy|Dy]; [contradiction|exact Dy|exact Hp].
      + intros Dy i ai bi mi H1 H3 H4. destruct i as [|i]; [|destruct i; discriminate]. injection H1 as <-. injection H3 as <-. injection H4 as <-.
        replace (a * y - 1) with ((a * x - 1) + a * (y - x)) by lia. apply Z.divide_add_r; [exact D|]. apply Z.divide_mul_r. exact Dy. }
  assert (G' : Z.gcd (a mod m) m = 1) by (rewrite Z.gcd_mod, Z.gcd_comm by lia; exact G).
  pose proof (Z.mod_pos_bound a m ltac:(lia)) as Bm.
  destruct (C45_inv_partial m (a mod m)) as (I1 & I2 & I3); [lia|lia|]. split.
  - intros [|].
    + destruct (I1 Hp ltac:(lia)) as [[I _] _]. destruct (I G') as (y & Ey & By & Dy). cbn [mc_inv static_ctx] in Ey. rewrite Ey. f_equal. apply U'; assumption.
    + destruct I2 as [[I _] _]. destruct (I G') as (y & Ey & By & Dy). cbn [mc_inv static_ctx] in Ey. rewrite Ey. f_equal. apply U'; assumption.
  - intros br Hbr. destruct (I3 ltac:(lia) br Hbr) as [[I _] _]. destruct (I G') as (y & Ey & By & Dy). rewrite Ey. f_equal. apply U'; assumption.
Qed.
Print Assumptions C117_inverse.

(** ex_gcd returns the number that gcd returns, sign included; and gcd(a,b) * lcm(a,b) = a * b. *)
Theorem C117_gcd : forall T, In T prim_types -> forall a b,
  (forall x y g, ex_gcd T a b = Ok (x, y, g) -> gcd T a b = Ok g) /\
  (forall g l, in_ty T a -> in_ty T b -> gcd T a b = Ok g -> lcm T a b = Ok l -> g * l = a * b).
Proof.
  intros T HT a b. split; [intros x y g; apply ex_gcd_gcd|]. intros g l Ha Hb Hg Hl. unfold lcm in Hl.
  destruct (imul T a b) as [p| |] eqn:Ep; cbn [mbind res_bind] in Hl; try discriminate. rewrite Hg in Hl. cbn [mbind res_bind] in Hl.
  assert (p = a * b) as -> by (unfold imul, chk in Ep; destruct (_ && _); congruence).
  assert (Hgabs : Z.abs g = Z.gcd a b).
  { destruct (decide (it_signed T = true /\ ((a = it_min T /\ b = -1) \/ (a = -1 /\ b = it_min T)))) as [[Hs Hbad]|Hok].
    - destruct (C31_gcd_overflow T HT Hs) as [O1 O2]. destruct Hbad as [[-> ->]|[-> ->]]; congruence.
    - destruct (C31_gcd T HT a b Ha Hb Hok) as (g' & Eg & Hg' & _). congruence. }
  unfold idiv in Hl. destruct (g =? 0) eqn:E0; [discriminate|]. apply Z.eqb_neq in E0. unfold chk in Hl. destruct (_ && _); [|discriminate]. injection Hl as <-.
  assert (D : (g | a * b)). { apply Z.divide_mul_l. apply Z.divide_abs_l. rewrite Hgabs. apply Z.gcd_divide_l. }
  destruct D as [k Hk]. rewrite Hk, Z.quot_mul by exact E0. lia.
Qed.
Print Assumptions C117_gcd.

(** Discrete logarithms: every number below a prime m is exactly one of pow_mod(g, 0), ..., pow_mod(g, m - 2), where g = primitive_root(m). *)
Theorem C117_discrete_log : forall m, in_ty i32 m -> prime m -> exists g, primitive_root m = Ok g /\
  forall x, 1 <= x < m -> exists k, 0 <= k < m - 1 /\ pow_mod g k m = Ok x /\ forall k', 0 <= k' < m - 1 -> pow_mod g k' m = Ok x -> k' = k.
Proof.
  intros m Hm Hp. destruct (C40_primitive_root m Hm Hp) as (g & E & Hg & Hgen & _). exists g. split; [exact E|]. pose proof Hm as Hm'. rewrite i32_range in Hm'.
  assert (Hnd : ~ (m | g)) by (intros Hd; apply Z.divide_pos_le in Hd; lia).
  assert (P : forall k v, 0 <= k < m - 1 -> pow_mod g k m = Ok v <-> mod_of (g ^ k) m v).
  { intros k v Hk. destruct (C37_pow_mod g k m) as (w & Ew & Hw); [rewrite i64_range; lia|rewrite i64_range; lia|lia|exact Hm|lia|]. rewrite Ew. split; [intros [= <-]; exact Hw|].
    intros Hv. apply mod_of_eq in Hv, Hw; [|lia..]. congruence. }
  intros x Hx. destruct (dlog_unique m g Hp Hgen Hnd x Hx) as (k & Hk & Hv & U). exists k. split; [exact Hk|]. split; [apply P; assumption|].
  intros k' Hk' E'. apply U; [exact Hk'|]. apply P; assumption.
Qed.
Print Assumptions C117_discrete_log.

(** The order of the congruences given to ex_crt does not matter, and solving part of a system first and then the two answers together
    gives the answer of the whole system. *)
Theorem C117_crt : forall l l' o o',
  Forall (fun c : cgr => (0 <= c.1.1 /\ in_ty i64 c.1.1) /\ in_ty i64 c.1.2 /\ (0 < c.2 /\ in_ty i64 c.2)) (l ++ l') ->
  (l ≡ₚ l' -> ex_crt (coefs l) (rests l) (moduli l) = Ok o -> ex_crt (coefs l') (rests l') (moduli l') = Ok o' -> o = o') /\
  (forall x m x' m' r, in_ty i64 x -> in_ty i64 m -> in_ty i64 x' -> in_ty i64 m' ->
    ex_crt (coefs l) (rests l) (moduli l) = Ok (Some (x, m)) -> ex_crt (coefs l') (rests l') (moduli l') = Ok (Some (x', m')) ->
    ex_crt (coefs (l ++ l')) (rests (l ++ l')) (moduli (l ++ l')) = Ok o -> ex_crt [1; 1] [x; x'] [m; m'] = Ok r -> o = r).
Proof.
  intros l l' o o' F.
  assert (C : forall k q, Forall (fun c : cgr => (0 <= c.1.1 /\ in_ty i64 c.1.1) /\ in_ty i64 c.1.2 /\ (0 < c.2 /\ in_ty i64 c.2)) k ->
    ex_crt (coefs k) (rests k) (moduli k) = Ok q -> crt_answer (coefs k) (rests k) (moduli k) q).
  { intros k q Fk E. rewrite Forall_forall in Fk. apply C34_ex_crt_partial; auto; try (unfold coefs, rests, moduli; rewrite !map_length; reflexivity);
      intros i z Hz; unfold coefs, rests, moduli in Hz; rewrite list_lookup_fmap in Hz; destruct (k !! i) as [c|] eqn:Hi; try discriminate; injection Hz as <-; apply elem_of_list_lookup_2 in Hi; apply Fk in Hi; tauto. }
  pose proof F as F0. apply Forall_app in F0 as [F1 F2]. split.
  - intros P E E'. assert (Hs : forall y, (forall c, c ∈ l -> (c.2 | c.1.1 * y - c.1.2)) <-> (forall c, c ∈ l' -> (c.2 | c.1.1 * y - c.1.2))).
    { intros y. split; intros H c Hc; apply H; [rewrite P|rewrite <- P]; exact Hc. }
    apply (crt_unique _ _ _ _ _ _ o o' (fun y => iff_trans (solves_list l y) (iff_trans (Hs y) (iff_sym (solves_list l' y)))) (C l o F1 E) (C l' o' F2 E')).
  - intros x m x' m' r Ix Im Ix' Im' E E' EE Er. pose proof (C _ _ F1 E) as [Bx A]. pose proof (C _ _ F2 E') as [Bx' A']. pose proof (C _ _ F EE) as AA.
    assert (Ar : crt_answer [1; 1] [x; x'] [m; m'] r).
    { apply C34_ex_crt_partial; auto; intros [|[|i]] z; cbn; intros [= <-]; rewrite ?i64_range; try (split; lia); try assumption; split; (assumption || lia). }
    apply (crt_unique (coefs (l ++ l')) (rests (l ++ l')) (moduli (l ++ l')) [1; 1] [x; x'] [m; m']); [|exact AA|exact Ar].
    intros y. rewrite solves_list. split.
    + intros H. assert (H1 : (m | y - x)) by (apply A, solves_list; intros c Hc; apply H, elem_of_app; auto). assert (H2 : (m' | y - x')) by (apply A', solves_list; intros c Hc; apply H, elem_of_app; auto).
      intros [|[|i]] ai bi mi; cbn; intros [= <-] [= <-] [= <-]; rewrite Z.mul_1_l; assumption.
    + intros H. assert (H1 : (m | y - x)) by (specialize (H 0%nat 1 x m eq_refl eq_refl eq_refl); rewrite Z.mul_1_l in H; exact H).
      assert (H2 : (m' | y - x')) by (specialize (H 1%nat 1 x' m' eq_refl eq_refl eq_refl); rewrite Z.mul_1_l in H; exact H).
      apply A in H1. apply A' in H2. rewrite solves_list in H1, H2. intros c [Hc|Hc]%elem_of_app; auto.
Qed.
Print Assumptions C117_crt.

(** Factorial's choose obeys Pascal's rule and symmetry under the modint operations, its rows sum to powers of two, and
    perm(n, k) = choose(n, k) * perm(k, k). *)
Theorem C117_choose : forall p hint N f, prime p -> 2 < p -> p <= 2 ^ 31 -> Z.of_nat N < p -> Z.of_nat N < 2 ^ 64 - 1 -> factorial_new (static_ctx p hint) N = Ok f ->
  let c := static_ctx p hint in
  (forall n k, (k < n < N)%nat -> exists u v w, choose c f n k = Ok u /\ choose c f n (S k) = Ok v /\ choose c f (S n) (S k) = Ok w /\ mi_add p u v = Ok w) /\
  (forall n k, (k <= n <= N)%nat -> choose c f n k = choose c f n (n - k)) /\
  (forall n, (n <= N)%nat -> exists row s, Forall2 (fun k v => choose c f n k = Ok v) (seq 0 (S n)) row /\ mi_sum c row = Ok s /\ mi_pow (mc_mul c) 2 (Z.of_nat n) = Ok s) /\
  (forall n k, (k <= n <= N)%nat -> exists u v w, choose c f n k = Ok u /\ perm c f k k = Ok v /\ perm c f n k = Ok w /\ mc_mul c u v = Ok w).
Proof.
  intros p hint N f Hp H3 Hp31 HN HN64 Ef c. destruct (C41_factorial p hint N Hp Hp31 HN64) as [F _]. destruct (F HN) as (f' & Ef' & Hc & _). rewrite Ef in Ef'. injection Ef' as <-.
  assert (Ch : forall n k, (k <= n <= N)%nat -> choose c f n k = Ok (Z.of_nat (binom n k) mod p)).
  { intros n k H. destruct (Hc n k H) as [(v & E & Hv) _]. apply mod_of_eq in Hv; [|lia]. unfold c. congruence. }
  assert (Pe : forall n k, (k <= n <= N)%nat -> perm c f n k = Ok (Z.of_nat (falling n k) mod p)).
  { intros n k H. destruct (Hc n k H) as [_ (v & E & Hv)]. apply mod_of_eq in Hv; [|lia]. unfold c. congruence. }
  split_and!.
  - intros n k H. rewrite !Ch by lia. do 3 eexists. split; [reflexivity|]. split; [reflexivity|]. split; [reflexivity|].
    rewrite add_ok by (try lia; apply Z.mod_pos_bound; lia). cbn [binom]. rewrite Nat2Z.inj_add, <- Z.add_mod by lia. reflexivity.
  - intros n k H. rewrite !Ch by lia. rewrite (binom_sym n k) by lia. reflexivity.
  - intros n Hn. exists (map (fun k => Z.of_nat (binom n k) mod p) (seq 0 (S n))), (2 ^ Z.of_nat n mod p). split; [|split].
    + apply Forall2_same_length_lookup_2; [rewrite map_length; reflexivity|]. intros i k v Hi Hv. rewrite list_lookup_fmap, Hi in Hv. injection Hv as <-. apply Ch. apply lookup_seq in Hi. lia.
    + rewrite (sum_ok p) by (try lia; try reflexivity; apply Forall_forall; intros z Hz; apply elem_of_list_fmap in Hz as (k & -> & _); apply Z.mod_pos_bound; lia).
      f_equal. rewrite <- binom_row. generalize (seq 0 (S n)). intros l. induction l as [|k l IH]; [reflexivity|]. cbn [map foldr]. rewrite Zplus_mod_idemp_l, <- Zplus_mod_idemp_r, IH, Zplus_mod_idemp_r. reflexivity.
    + apply (pow_ok p); [lia|apply static_mul_ok; lia|lia|rewrite u64_range; lia|lia].
  - intros n k H. rewrite Ch, !Pe by lia. do 3 eexists. split; [reflexivity|]. split; [reflexivity|]. split; [reflexivity|].
    destruct (static_mul_ok p ltac:(lia)) as [M _]. cbn [mc_mul c static_ctx]. rewrite M by (apply Z.mod_pos_bound; lia). rewrite <- Zmult_mod. f_equal.
    rewrite <- Nat2Z.inj_mul. f_equal. f_equal.
    assert (Fl : forall a b, (b <= a)%nat -> (falling a b * fact (a - b) = fact a)%nat).
    { intros a b. induction b as [|b IH]; intros Hb; [cbn; rewrite Nat.sub_0_r; lia|]. rewrite <- IH by lia. cbn [falling]. assert (Eab : fact (a - b) = ((a - b) * fact (a - S b))%nat) by (replace (a - b)%nat with (S (a - S b)) by lia; reflexivity). rewrite Eab. lia. }
    pose proof (binom_fact n k ltac:(lia)) as B. pose proof (Fl n k ltac:(lia)) as F1. pose proof (Fl k k ltac:(lia)) as F2. rewrite Nat.sub_diag, Nat.mul_1_r in F2. rewrite F2.
    apply (Nat.mul_cancel_r _ _ (fact (n - k))); [pose proof (lt_O_fact (n - k)); lia|]. rewrite F1, <- B. lia.
Qed.
Print Assumptions C117_choose.

Example C117_nonvacuous : inv_gcd 10 7 = Ok (1, 5) /\ pow_mod 10 5 7 = Ok 5 /\ ex_gcd i64 10 7 = Ok (-2, 3, 1) /\ ex_crt [10] [1] [7] = Ok (Some (5, 7)) /\ static_inv 7 true 3 = Ok 5 /\
  gcd i32 (-12) 18 = Ok 6 /\ lcm i32 (-12) 18 = Ok (-36) /\ primitive_root 7 = Ok 3 /\ pow_mod 3 5 7 = Ok 5 /\
  ex_crt [1; 2; 3] [1; 3; 2] [4; 5; 7] = Ok (Some (129, 140)) /\ ex_crt [3; 1; 2] [2; 1; 3] [7; 4; 5] = Ok (Some (129, 140)) /\
  (f ← factorial_new (static_ctx 7 true) 6; choose (static_ctx 7 true) f 6 3) = Ok 6.
Proof. repeat split; vm_compute; reflexivity. Qed.
Close Scope Z_scope.
