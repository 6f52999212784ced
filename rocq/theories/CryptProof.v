From Coq Require Import Znumtheory.
From Verif Require Import Prelude NumTheory IntModel NumProof IMathModel IMathSpec IMathProof IMathRoot ModIntProof NumAgreeProof CryptModel CryptSpec.
Open Scope Z_scope.

(** ** Congruences *)
Lemma pow_diff p x y k : 0 <= k -> (p | x - y) -> (p | x ^ k - y ^ k).
Proof.
  intros Hk H. revert k Hk. apply natlike_ind; [exists 0; reflexivity|]. intros k Hk IH. rewrite !Z.pow_succ_r by exact Hk.
  replace (x * x ^ k - y * y ^ k) with ((x - y) * x ^ k + y * (x ^ k - y ^ k)) by ring. apply Z.divide_add_r; [apply Z.divide_mul_l, H|apply Z.divide_mul_r, IH].
Qed.
Lemma div_trans p x y z : (p | x - y) -> (p | y - z) -> (p | x - z).
Proof. intros H K. replace (x - z) with ((x - y) + (y - z)) by ring. apply Z.divide_add_r; assumption. Qed.
Lemma div_sym p x y : (p | x - y) -> (p | y - x).
Proof. intros H. replace (y - x) with (- (x - y)) by ring. apply Z.divide_opp_r, H. Qed.
Lemma mod_diff p x : 0 < p -> (p | x mod p - x).
Proof. intros H. apply mod_eq_div; [exact H|]. apply Z.mod_mod. lia. Qed.
Lemma fermat_div p x : prime p -> ~ (p | x) -> (p | x ^ (p - 1) - 1).
Proof.
  intros Hp Hx. pose proof (prime_ge_2 p Hp). apply mod_eq_div; [lia|]. rewrite fermat_Z by assumption. symmetry. apply Z.mod_small. lia.
Qed.
(** exponents count modulo p - 1 *)
Lemma pow_cong_le p g i j : prime p -> ~ (p | g) -> 0 <= i <= j -> (p - 1 | j - i) -> (p | g ^ j - g ^ i).
Proof.
  intros Hp Hg Hij [c Hc]. pose proof (prime_ge_2 p Hp).
  assert (0 <= c) by nia.
  replace j with (i + (p - 1) * c) by lia. rewrite Z.pow_add_r by nia. rewrite Z.pow_mul_r by lia.
  replace (g ^ i * (g ^ (p - 1)) ^ c - g ^ i) with (g ^ i * ((g ^ (p - 1)) ^ c - 1)) by ring. apply Z.divide_mul_r.
  apply dvd_pow_1; [lia|]. apply fermat_div; assumption.
Qed.
Lemma pow_cong p g i j : prime p -> ~ (p | g) -> 0 <= i -> 0 <= j -> (p - 1 | j - i) -> (p | g ^ j - g ^ i).
Proof.
  intros Hp Hg Hi Hj H. destruct (Z.le_gt_cases i j); [apply pow_cong_le; (assumption || lia)|].
  apply div_sym, pow_cong_le; [assumption..|lia|]. apply div_sym, H.
Qed.
Lemma pow_self p x u : prime p -> 0 < u -> (p - 1 | u - 1) -> (p | x ^ u - x).
Proof.
  intros Hp Hu H. destruct (Zdivide_dec p x) as [D|D].
  - replace u with (Z.succ (u - 1)) by lia. rewrite Z.pow_succ_r by lia. replace (x * x ^ (u - 1) - x) with (x * (x ^ (u - 1) - 1)) by ring. apply Z.divide_mul_l, D.
  - rewrite <- (Z.pow_1_r x) at 2. apply pow_cong; try assumption; lia.
Qed.
Lemma pow_not_div p x k : prime p -> ~ (p | x) -> 0 <= k -> ~ (p | x ^ k).
Proof.
  intros Hp Hx. revert k. apply (natlike_ind (fun k => ~ (p | x ^ k))).
  - cbn. intros H. pose proof (prime_ge_2 p Hp). apply Z.divide_1_r_nonneg in H; lia.
  - intros k Hk IH H. rewrite Z.pow_succ_r in H by exact Hk. apply prime_mult in H as [H|H]; [contradiction..|exact Hp].
Qed.
Lemma both_div p q z : prime p -> prime q -> p <> q -> (p | z) -> (q | z) -> (p * q | z).
Proof.
  intros Hp Hq Hn [a ->] D. assert (R : rel_prime q p). { apply rel_prime_sym. apply prime_rel_prime; [exact Hp|]. intros D'. apply prime_div_prime in D'; auto. }
  rewrite Z.mul_comm in D. apply Gauss in D; [|exact R]. destruct D as [b ->]. exists b. ring.
Qed.
Lemma pow_mod_div x n m : in_ty i64 x -> in_ty i64 n -> 0 <= n -> in_ty i32 m -> 1 <= m -> exists v, pow_mod x n m = Ok v /\ 0 <= v < m /\ (m | v - x ^ n).
Proof.
  intros Hx Hn H0 Hm H1. exists (x ^ n mod m). split; [apply pow_mod_ok; assumption|]. split; [apply Z.mod_pos_bound; lia|]. apply mod_diff. lia.
Qed.
Lemma range_eq m x y : 0 <= x < m -> 0 <= y < m -> (m | x - y) -> x = y.
Proof. intros Hx Hy H. apply small_div_0 in H; lia. Qed.

(** ** RSA *)
Lemma twice_pow n phi p q m c w e d : prime p -> prime q -> p <> q -> n = p * q -> phi = (p - 1) * (q - 1) -> 0 <= e -> 0 <= d -> 0 < e * d ->
  (phi | e * d - 1) -> (n | c - m ^ e) -> (n | w - c ^ d) -> (n | w - m).
Proof.
  intros Hp Hq Hn -> -> He Hd Hed D Hc Hw. apply div_trans with (m ^ (e * d)).
  - eapply div_trans; [exact Hw|]. rewrite Z.pow_mul_r by lia. apply pow_diff; [lia|exact Hc].
  - apply both_div; try assumption; apply pow_self; try assumption; (eapply Z.divide_trans; [|exact D]); [exists (q - 1)|exists (p - 1)]; ring.
Qed.
Lemma crt_pair p q y : prime p -> prime q -> p <> q -> exists m, 0 <= m < p * q /\ (p | m - y) /\ (q | m - 1).
Proof.
  intros Hp Hq Hn. pose proof (prime_ge_2 p Hp). pose proof (prime_ge_2 q Hq).
  assert (R : rel_prime p q) by (apply prime_rel_prime; [exact Hp|]; intros D'; apply prime_div_prime in D'; auto).
  apply rel_prime_bezout in R as [u v E]. exists ((y * (v * q) + u * p) mod (p * q)). split; [apply Z.mod_pos_bound; nia|].
  assert (M : (p * q | (y * (v * q) + u * p) mod (p * q) - (y * (v * q) + u * p))) by (apply mod_diff; nia). split.
  - eapply div_trans; [eapply Z.divide_trans; [|exact M]; exists q; ring|]. exists (u * (1 - y)). replace (v * q) with (1 - u * p) by lia. ring.
  - eapply div_trans; [eapply Z.divide_trans; [|exact M]; exists p; ring|]. exists (v * (y - 1)). replace (u * p) with (1 - v * q) by lia. ring.
Qed.
(** a common prime factor of e and p - 1 makes two messages meet *)
Lemma collide p q e r : prime p -> prime q -> p <> q -> 0 <= e -> prime r -> (r | e) -> (r | p - 1) -> exists m, 0 <= m < p * q /\ m <> 1 /\ (p * q | m ^ e - 1).
Proof.
  intros Hp Hq Hn He Hr De Dp. pose proof (prime_ge_2 r Hr). destruct (order_exists p Hp r ltac:(lia) Dp) as (y & Hy & O1 & O2).
  destruct (crt_pair p q y Hp Hq Hn) as (m & Hm & M1 & M2). exists m. split; [exact Hm|]. split.
  - intros ->. assert (D1 : (r | 1)). { apply O2; [lia|]. rewrite Z.pow_1_r. apply div_sym, M1. } apply Z.divide_1_r_nonneg in D1; lia.
  - apply both_div; try assumption.
    + eapply div_trans; [apply pow_diff; [exact He|exact M1]|]. destruct De as [c Hc]. replace e with (r * c) by lia. apply pow_pow_1; [lia|nia|exact O1].
    + rewrite <- (Z.pow_1_l e) by exact He. apply pow_diff; assumption.
Qed.
Lemma rsa_key_ok p q e : prime p -> prime q -> p <> q -> in_ty i32 (p * q) -> 0 <= e -> in_ty i64 e -> exists k, rsa_key p q e = Ok k /\
  match k with
  | Some d => 0 <= d < (p - 1) * (q - 1) /\
      (forall m, 0 <= m < p * q -> exists c, pow_mod m e (p * q) = Ok c /\ 0 <= c < p * q /\ pow_mod c d (p * q) = Ok m) /\
      (forall m, 0 <= m < p * q -> exists c, pow_mod m d (p * q) = Ok c /\ 0 <= c < p * q /\ pow_mod c e (p * q) = Ok m)
  | None => exists m m', 0 <= m < p * q /\ 0 <= m' < p * q /\ m <> m' /\ pow_mod m e (p * q) = pow_mod m' e (p * q)
  end.
Proof.
  intros Hp Hq Hn Hpq He He64. pose proof (prime_ge_2 p Hp). pose proof (prime_ge_2 q Hq). pose proof Hpq as Hpq'. rewrite i32_range in Hpq'.
  set (phi := (p - 1) * (q - 1)). assert (Hphi : 2 <= phi <= p * q) by (unfold phi; nia).
  unfold rsa_key. rewrite isub_ok by (rewrite i64_range; nia). cbn [mbind res_bind]. rewrite isub_ok by (rewrite i64_range; nia). cbn [mbind res_bind].
  rewrite imul_ok by (rewrite i64_range; fold phi; nia). cbn [mbind res_bind]. fold phi.
  assert (P64 : in_ty i64 phi) by (rewrite i64_range; lia).
  destruct (inv_gcd_ok e phi He64 P64 ltac:(lia)) as (g & d & E & Hg & D & B). rewrite E. cbn [mbind res_bind].
  destruct (Z.eqb_spec g 1) as [E1|E1]; eexists; (split; [reflexivity|]); cbn beta iota.
  - rewrite E1 in *. rewrite Z.div_1_r in B. split; [lia|].
    assert (Hed : 0 < e * d). { destruct (Z.eq_dec (e * d) 0) as [Z0|Z0]; [|nia]. rewrite Z0 in D. apply div_sym in D. apply Z.divide_1_r_nonneg in D; lia. }
    assert (D64 : in_ty i64 d) by (rewrite i64_range; lia).
    assert (Step : forall k l, in_ty i64 k -> in_ty i64 l -> 0 <= k -> 0 <= l -> 0 < k * l -> (phi | k * l - 1) ->
      forall m, 0 <= m < p * q -> exists c, pow_mod m k (p * q) = Ok c /\ 0 <= c < p * q /\ pow_mod c l (p * q) = Ok m).
    { intros k l Hk Hl Hk0 Hl0 Hkl Dkl m Hm. destruct (pow_mod_div m k (p * q)) as (c & Ec & Bc & Dc); [rewrite i64_range; lia|assumption..|nia|].
      exists c. split; [exact Ec|]. split; [exact Bc|]. destruct (pow_mod_div c l (p * q)) as (w & Ew & Bw & Dw); [rewrite i64_range; lia|assumption..|nia|].
      rewrite Ew. f_equal. apply (range_eq (p * q)); [lia..|]. eapply (twice_pow (p * q) phi p q m c w k l); eauto. }
    split; apply Step; try assumption; try lia. rewrite (Z.mul_comm d e). exact D.
  - assert (G1 : 1 < g). { pose proof (Z.gcd_nonneg e phi). destruct (Z.eq_dec g 0) as [G0|G0]; [|lia]. rewrite Hg in G0. apply Z.gcd_eq_0 in G0. lia. }
    destruct (exists_prime_divisor g G1) as (r & Hr & Dr).
    assert (De : (r | e)) by (eapply Z.divide_trans; [exact Dr|]; rewrite Hg; apply Z.gcd_divide_l).
    assert (Dphi : (r | phi)) by (eapply Z.divide_trans; [exact Dr|]; rewrite Hg; apply Z.gcd_divide_r).
    assert (C : exists m, 0 <= m < p * q /\ m <> 1 /\ (p * q | m ^ e - 1)).
    { unfold phi in Dphi. apply prime_mult in Dphi as [Dphi|Dphi]; [apply (collide p q e r); assumption| |exact Hr].
      rewrite (Z.mul_comm p q). apply (collide q p e r); try assumption. auto. }
    destruct C as (m & Hm & M1 & M2). exists m, 1. split; [exact Hm|]. split; [nia|]. split; [exact M1|].
    rewrite !pow_mod_ok by (try assumption; try rewrite i64_range; nia). f_equal. apply mod_eq_div; [nia|]. rewrite Z.pow_1_l by exact He. exact M2.
Qed.

(** ** Key exchange *)
Lemma exchange_ok p a b : prime p -> in_ty i32 p -> 0 <= a -> 0 <= b -> in_ty i64 a -> in_ty i64 b -> exists g s, primitive_root p = Ok g /\ exchange p a b = Ok (s, s) /\ mod_of (g ^ (a * b)) p s.
Proof.
  intros Hp Hpi Ha Hb Ha64 Hb64. pose proof (prime_ge_2 p Hp). pose proof Hpi as Hp'. rewrite i32_range in Hp'. destruct (primitive_root_ok p Hp Hpi) as (g & E & Hg & _).
  exists g, (g ^ (a * b) mod p). split; [exact E|]. split; [|apply mod_of_mod; lia]. unfold exchange. rewrite E. cbn [mbind res_bind].
  pose proof (Z.mod_pos_bound (g ^ a) p ltac:(lia)). pose proof (Z.mod_pos_bound (g ^ b) p ltac:(lia)).
  rewrite !pow_mod_ok; try assumption; try (rewrite i64_range; lia); try lia. cbn [mbind res_bind].
  rewrite !pow_mod_ok; try assumption; try (rewrite i64_range; lia); try lia. cbn [mbind res_bind]. f_equal.
  assert (P : forall i j, 0 <= i -> 0 <= j -> (g ^ i mod p) ^ j mod p = g ^ (i * j) mod p).
  { intros i j Hi Hj. rewrite Z.pow_mul_r by lia. symmetry. apply Zpow_facts.Zpower_mod. lia. }
  rewrite !P by lia. rewrite (Z.mul_comm b a). reflexivity.
Qed.

(** ** Sealed messages *)
Lemma seal_ok p g x k w : prime p -> in_ty i32 p -> 1 <= g < p -> 0 <= x -> 0 <= k -> in_ty i64 x -> in_ty i64 k -> 0 <= w < p ->
  exists h cv, pow_mod g x p = Ok h /\ seal p g h k w = Ok cv /\ unseal p x cv = Ok w.
Proof.
  intros Hp Hpi Hg Hx Hk Hx64 Hk64 Hw. pose proof (prime_ge_2 p Hp). pose proof Hpi as Hp'. rewrite i32_range in Hp'.
  assert (P64 : in_ty i64 p) by (rewrite i64_range; lia).
  destruct (pow_mod_div g x p) as (h & Eh & Bh & Dh); [rewrite i64_range; lia|assumption..|lia|]. exists h.
  destruct (pow_mod_div g k p) as (c & Ec & Bc & Dc); [rewrite i64_range; lia|assumption..|lia|].
  destruct (pow_mod_div h k p) as (s & Es & Bs & Ds); [rewrite i64_range; lia|assumption..|lia|].
  destruct (pow_mod_div c x p) as (t & Et & Bt & Dt); [rewrite i64_range; lia|assumption..|lia|].
  exists (c, w * s mod p). split; [exact Eh|]. split.
  { unfold seal. rewrite Ec. cbn [mbind res_bind]. rewrite Es. cbn [mbind res_bind]. rewrite imul_ok by (rewrite i64_range; nia). cbn [mbind res_bind].
    rewrite irem_pos; [reflexivity|cbn; lia|rewrite i64_range; nia|exact P64|nia|lia]. }
  assert (Est : s = t).
  { apply (range_eq p); [assumption..|]. apply div_trans with (g ^ (x * k)).
    - eapply div_trans; [exact Ds|]. rewrite Z.pow_mul_r by lia. apply pow_diff; assumption.
    - apply div_sym. eapply div_trans; [exact Dt|]. rewrite (Z.mul_comm x k), Z.pow_mul_r by lia. apply pow_diff; assumption. }
  rewrite <- Est in *. clear t Est. unfold unseal. rewrite Et. cbn [mbind res_bind].
  assert (Hgd : ~ (p | g)) by (apply not_div_range; lia).
  assert (Hs : ~ (p | s)).
  { intros D. apply (pow_not_div p c x Hp) in Hx as Hc.
    - apply Hc. apply div_sym in Dt. apply (Z.divide_add_r p (c ^ x - s) s) in Dt; [|exact D]. replace (c ^ x - s + s) with (c ^ x) in Dt by ring. exact Dt.
    - intros D'. apply (pow_not_div p g k Hp Hgd Hk). apply div_sym in Dc. apply (Z.divide_add_r p (g ^ k - c) c) in Dc; [|exact D']. replace (g ^ k - c + c) with (g ^ k) in Dc by ring. exact Dc. }
  assert (S64 : in_ty i64 s) by (rewrite i64_range; lia).
  destruct (inv_gcd_ok s p S64 P64 ltac:(lia)) as (d & i & E & Hd & D & B). rewrite E. cbn [mbind res_bind].
  assert (G : Z.gcd s p = 1) by (rewrite Z.gcd_comm; apply Zgcd_1_rel_prime, prime_rel_prime; assumption). rewrite G in Hd. rewrite Hd in *. rewrite Z.div_1_r in B.
  pose proof (Z.mod_pos_bound (w * s) p ltac:(lia)) as Bv.
  rewrite imul_ok by (rewrite i64_range; nia). cbn [mbind res_bind]. rewrite irem_pos; [|cbn; lia|rewrite i64_range; nia|exact P64|nia|lia]. f_equal.
  apply (range_eq p); [apply Z.mod_pos_bound; lia|exact Hw|]. eapply div_trans; [apply mod_diff; lia|]. apply div_trans with (w * s * i).
  - replace ((w * s) mod p * i - w * s * i) with (((w * s) mod p - w * s) * i) by ring. apply Z.divide_mul_l, mod_diff. lia.
  - replace (w * s * i - w) with (w * (s * i - 1)) by ring. apply Z.divide_mul_r, D.
Qed.

(** ** k-th powers *)
Lemma kth_power_iff p k a : prime p -> 1 <= k -> ~ (p | a) -> (exists x, root p k a x) <-> (p | a ^ ((p - 1) / Z.gcd k (p - 1)) - 1).
Proof.
  intros Hp Hk Ha. pose proof (prime_ge_2 p Hp). set (d := Z.gcd k (p - 1)).
  assert (Hd : 0 < d). { pose proof (Z.gcd_nonneg k (p - 1)). destruct (Z.eq_dec d 0) as [Z0|Z0]; [apply Z.gcd_eq_0 in Z0; lia|fold d in H0; lia]. }
  destruct (Z.gcd_divide_l k (p - 1)) as [k1 Hk1]. destruct (Z.gcd_divide_r k (p - 1)) as [n1 Hn1]. fold d in Hk1, Hn1.
  assert (Hdiv : (p - 1) / d = n1) by (rewrite Hn1; apply Z.div_mul; lia). rewrite Hdiv. assert (0 < n1) by nia. assert (0 < k1) by nia. split.
  - intros [x Hx]. unfold root in Hx. assert (Nx : ~ (p | x)).
    { intros D. apply Ha. apply div_sym in Hx. replace a with ((a - x ^ k) + x ^ k) by ring. apply Z.divide_add_r; [exact Hx|].
      replace k with (Z.succ (k - 1)) by lia. rewrite Z.pow_succ_r by lia. apply Z.divide_mul_l, D. }
    eapply div_trans; [apply pow_diff; [lia|apply div_sym, Hx]|]. rewrite <- Z.pow_mul_r by lia. replace (k * n1) with ((p - 1) * k1) by nia.
    apply pow_pow_1; [lia..|]. apply fermat_div; assumption.
  - intros D. destruct (prim_root_Z p Hp) as (g & Hg & Hfo). assert (Hgd : ~ (p | g)) by (apply not_div_range; lia).
    pose proof (full_order_generator p g Hp ltac:(lia) Hfo) as Hgen.
    assert (Hr : 1 <= a mod p < p). { pose proof (Z.mod_pos_bound a p ltac:(lia)). destruct (Z.eq_dec (a mod p) 0) as [Z0|Z0]; [|lia]. apply mod_0_div in Z0; [contradiction|lia]. }
    destruct (Hgen (a mod p) Hr) as (j & Hj & _ & Dj). assert (Dja : (p | g ^ j - a)) by (eapply div_trans; [exact Dj|apply mod_diff; lia]).
    assert (Dd : (d | j)).
    { assert (F : (p - 1 | j * n1)).
      { apply Hfo; [nia|]. apply pow_mod_eq_iff; [lia|nia|lia|]. eapply div_trans; [|exact D]. rewrite Z.pow_mul_r by lia. apply pow_diff; [lia|exact Dja]. }
      rewrite Hn1, Z.mul_comm in F. rewrite (Z.mul_comm j n1) in F. replace (d * n1) with (n1 * d) in F by ring. apply Z.mul_divide_cancel_l in F; [exact F|lia]. }
    destruct Dd as [t Ht]. destruct (Z.gcd_bezout k (p - 1) d eq_refl) as (u & v & Huv).
    set (u' := u mod (p - 1)). assert (Hu' : 0 <= u') by (apply Z.mod_pos_bound; lia).
    exists (g ^ (u' * t)). unfold root. assert (0 <= t) by nia. rewrite <- Z.pow_mul_r by nia. eapply div_trans; [|exact Dja]. apply pow_cong; [assumption..|nia|nia|].
    replace (u' * t * k - j) with ((u' - u) * (t * k) + t * (u * k - d)) by (rewrite Ht; ring).
    apply Z.divide_add_r; [apply Z.divide_mul_l, mod_diff; lia|]. apply Z.divide_mul_r. exists (- v). lia.
Qed.
Lemma is_power_ok p k a : prime p -> in_ty i32 p -> 1 <= k -> in_ty i64 k -> in_ty i64 a -> exists b, is_power p k a = Ok b /\ (b = true <-> exists x, root p k a x).
Proof.
  intros Hp Hpi Hk Hk64 Ha64. pose proof (prime_ge_2 p Hp). pose proof Hpi as Hp'. rewrite i32_range in Hp'. assert (P64 : in_ty i64 p) by (rewrite i64_range; lia).
  unfold is_power. rewrite safe_mod_ok by (assumption || lia). cbn [mbind res_bind]. destruct (Z.eqb_spec (a mod p) 0) as [E0|E0].
  - exists true. split; [reflexivity|]. split; [intros _|auto]. exists 0. unfold root. apply mod_0_div in E0; [|lia]. rewrite Z.pow_0_l by lia. apply Z.divide_opp_r in E0. exact E0.
  - assert (Hnd : ~ (p | a)) by (rewrite <- mod_0_div by lia; exact E0).
    rewrite isub_ok by (rewrite i64_range; lia). cbn [mbind res_bind].
    destruct (inv_gcd_ok k (p - 1) Hk64) as (g & d & E & Hg & D & B); [rewrite i64_range; lia|lia|]. rewrite E. cbn [mbind res_bind].
    assert (Hg1 : 0 < g <= p - 1). { rewrite Hg. pose proof (Z.gcd_nonneg k (p - 1)). split; [|apply Z.divide_pos_le; [lia|apply Z.gcd_divide_r]].
      destruct (Z.eq_dec (Z.gcd k (p - 1)) 0) as [Z0|Z0]; [apply Z.gcd_eq_0 in Z0|]; lia. }
    rewrite idiv_pos; [|cbn; lia|rewrite i64_range; lia|rewrite i64_range; lia|lia|lia]. cbn [mbind res_bind].
    assert (Hh : 0 <= (p - 1) / g <= p - 1). { split; [apply Z.div_pos; lia|]. apply Z.div_le_upper_bound; nia. }
    rewrite pow_mod_ok; [|assumption|rewrite i64_range; lia|lia|assumption|lia]. cbn [mbind res_bind]. eexists. split; [reflexivity|].
    rewrite Z.eqb_eq, kth_power_iff, <- Hg by assumption. apply pow_mod_eq_iff; lia.
Qed.

Lemma kth_root_ok p k a : prime p -> 2 < p -> in_ty i32 p -> 0 <= k -> in_ty i64 k -> in_ty i64 a -> exists o, kth_root p k a = Ok o /\
  match o with
  | Some x => 0 <= x < p /\ root p k a x /\ forall y, 0 <= y < p -> root p k a y -> y = x
  | None => exists c y z, 0 <= y < p /\ 0 <= z < p /\ y <> z /\ root p k c y /\ root p k c z
  end.
Proof.
  intros Hp H3 Hpi Hk Hk64 Ha64. pose proof Hpi as Hp'. rewrite i32_range in Hp'. unfold kth_root. rewrite isub_ok by (rewrite i64_range; lia). cbn [mbind res_bind].
  destruct (inv_gcd_ok k (p - 1) Hk64) as (g & d & E & Hg & D & B); [rewrite i64_range; lia|lia|]. rewrite E. cbn [mbind res_bind].
  destruct (Z.eqb_spec g 1) as [E1|E1].
  - rewrite E1 in *. rewrite Z.div_1_r in B.
    assert (Hkd : 0 < k * d). { destruct (Z.eq_dec (k * d) 0) as [Z0|Z0]; [|nia]. rewrite Z0 in D. apply div_sym in D. apply Z.divide_1_r_nonneg in D; lia. }
    destruct (pow_mod_div a d p) as (x & Ex & Bx & Dx); [assumption|rewrite i64_range; lia|lia|assumption|lia|]. rewrite Ex. cbn [mbind res_bind].
    eexists. split; [reflexivity|]. cbn beta iota. split; [exact Bx|]. split.
    + unfold root. eapply div_trans; [apply pow_diff; [lia|exact Dx]|]. rewrite <- Z.pow_mul_r by lia. rewrite (Z.mul_comm d k). apply pow_self; assumption.
    + intros y Hy Ry. apply (range_eq p); [assumption..|]. apply div_sym. eapply div_trans; [exact Dx|]. eapply div_trans; [apply pow_diff; [lia|apply div_sym, Ry]|].
      rewrite <- Z.pow_mul_r by lia. apply pow_self; assumption.
  - eexists. split; [reflexivity|]. cbn beta iota.
    assert (G1 : 1 < g). { pose proof (Z.gcd_nonneg k (p - 1)). destruct (Z.eq_dec g 0) as [G0|G0]; [|lia]. rewrite Hg in G0. apply Z.gcd_eq_0 in G0. lia. }
    destruct (order_exists p Hp g ltac:(lia)) as (y & Hy & O1 & O2); [rewrite Hg; apply Z.gcd_divide_r|].
    destruct (Z.gcd_divide_l k (p - 1)) as [c Hc]. rewrite <- Hg in Hc. pose proof (Z.mod_pos_bound y p ltac:(lia)).
    exists 1, (y mod p), 1. split; [lia|]. split; [lia|]. split; [|split].
    + intros Ey. assert (D1 : (g | 1)). { apply O2; [lia|]. rewrite Z.pow_1_r. rewrite <- Ey. apply div_sym, mod_diff. lia. } apply Z.divide_1_r_nonneg in D1; lia.
    + unfold root. eapply div_trans; [apply pow_diff; [lia|apply mod_diff; lia]|]. replace k with (g * c) by lia. apply pow_pow_1; [lia|nia|exact O1].
    + unfold root. rewrite Z.pow_1_l by lia. exists 0. reflexivity.
Qed.

Lemma sqrt_mod_ok p a : prime p -> p mod 4 = 3 -> in_ty i32 p -> in_ty i64 a -> exists o, sqrt_mod p a = Ok o /\
  match o with Some s => 0 <= s < p /\ root p 2 a s | None => forall x, ~ root p 2 a x end.
Proof.
  intros Hp H4 Hpi Ha64. pose proof (prime_ge_2 p Hp). pose proof Hpi as Hp'. rewrite i32_range in Hp'. assert (P64 : in_ty i64 p) by (rewrite i64_range; lia).
  pose proof (Z.div_mod p 4 ltac:(lia)) as Hdm. rewrite H4 in Hdm. set (t := p / 4) in *. assert (0 <= t) by lia.
  assert (Hn : (p + 1) / 4 = t + 1) by (rewrite Hdm; replace (4 * t + 3 + 1) with ((t + 1) * 4) by ring; apply Z.div_mul; lia).
  unfold sqrt_mod. unfold iadd. rewrite chk_ok by (rewrite i64_range; lia). cbn [mbind res_bind]. rewrite idiv_pos; [|cbn; lia|rewrite i64_range; lia|rewrite i64_range; lia|lia|lia].
  cbn [mbind res_bind]. rewrite Hn. destruct (pow_mod_div a (t + 1) p) as (s & Es & Bs & Ds); [assumption|rewrite i64_range; lia|lia|assumption|lia|]. rewrite Es. cbn [mbind res_bind].
  rewrite imul_ok by (rewrite i64_range; nia). cbn [mbind res_bind]. rewrite irem_pos; [|cbn; lia|rewrite i64_range; nia|exact P64|nia|lia]. cbn [mbind res_bind].
  rewrite safe_mod_ok by (assumption || lia). cbn [mbind res_bind]. eexists. split; [reflexivity|]. destruct (Z.eqb_spec ((s * s) mod p) (a mod p)) as [E|E]; cbn beta iota.
  - split; [exact Bs|]. unfold root. rewrite Z.pow_2_r. apply mod_eq_div; [lia|exact E].
  - intros x Hx. apply E. apply mod_eq_div; [lia|]. rewrite <- Z.pow_2_r. unfold root in Hx.
    apply div_trans with (a ^ (2 * (t + 1))).
    { rewrite (Z.mul_comm 2), Z.pow_mul_r by lia. apply pow_diff; [lia|exact Ds]. }
    apply div_trans with (x ^ (2 * (2 * (t + 1)))).
    { rewrite (Z.pow_mul_r x 2) by lia. apply pow_diff; [lia|]. apply div_sym, Hx. }
    eapply div_trans; [|exact Hx]. replace (2 * (2 * (t + 1))) with ((p - 1) + 2) by lia. rewrite Z.pow_add_r by lia.
    replace (x ^ (p - 1) * x ^ 2 - x ^ 2) with (x * (x ^ Z.succ (p - 1) - x)) by (rewrite Z.pow_succ_r by lia; ring).
    apply Z.divide_mul_r. apply pow_self; [exact Hp|lia|]. exists 1. lia.
Qed.
Close Scope Z_scope.
