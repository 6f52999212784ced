(** Proofs for src/misc/modint.rs. *)
From Coq Require Import Znumtheory Zpow_facts.
From Verif Require Import Prelude NumTheory IntModel NumProof IMathModel IMathSpec IMathProof IMathRoot ModIntModel ModIntSpec.
Open Scope Z_scope.

(** ** new *)
Lemma irem_euclid_ok T a b : 2 <= it_bits T -> it_signed T = true -> in_ty T a -> in_ty T b -> 1 <= b -> irem_euclid T a b = Ok (a mod b).
Proof.
  intros HT Hs Ha Hb H1. unfold irem_euclid. rewrite irem_ok; [|assumption..|lia|unfold bad; lia]. cbn [mbind res_bind].
  pose proof (Z.quot_rem a b ltac:(lia)) as E. pose proof (Z.rem_bound_abs a b ltac:(lia)).
  destruct (Z.ltb_spec (Z.rem a b) 0).
  - assert (E2 : Z.rem a b + b = a mod b) by (apply (Z.mod_unique a b (Z.quot a b - 1)); lia).
    rewrite (Z.abs_eq b) by lia. rewrite E2, wrap_id; [reflexivity|lia|].
    pose proof (Z.mod_pos_bound a b ltac:(lia)). unfold in_ty, it_min in *. rewrite Hs in *.
    pose proof (Z.pow_nonneg 2 (it_bits T - 1) ltac:(lia)). lia.
  - f_equal. apply (Z.mod_unique a b (Z.quot a b)); lia.
Qed.

Lemma new_ok T v m : T ∈ prim_types -> in_ty T v -> 1 <= m < 2 ^ 32 -> mi_new m T v = Ok (v mod m).
Proof.
  intros HT Hv Hm. unfold mi_new, rem_euclid_u32.
  pose proof (Z.mod_pos_bound v m ltac:(lia)) as B.
  assert (W : wrap u32 (v mod m) = v mod m) by (rewrite wrap_u32; apply Z.mod_small; lia).
  assert (S64 : in_ty i64 v -> (r ← irem_euclid i64 (wrap i64 v) m; Ok (wrap u32 r)) = Ok (v mod m)).
  { intros H. rewrite wrap_id by (assumption || reflexivity).
    rewrite irem_euclid_ok; [|cbn; lia|reflexivity|assumption|rewrite i64_range; lia|lia]. cbn [mbind res_bind]. rewrite W. reflexivity. }
  assert (S128 : in_ty i128 v -> (r ← irem_euclid i128 v m; Ok (wrap u32 r)) = Ok (v mod m)).
  { intros H. rewrite irem_euclid_ok; [|cbn; lia|reflexivity|assumption|rewrite i128_range; lia|lia]. cbn [mbind res_bind]. rewrite W. reflexivity. }
  assert (U32 : in_ty u32 v -> irem u32 (wrap u32 v) m = Ok (v mod m)).
  { intros H. rewrite wrap_id by (assumption || reflexivity). rewrite u32_range in H.
    apply irem_pos; [cbn; lia|rewrite u32_range; lia..|lia|lia]. }
  assert (U64 : in_ty u64 v -> (r ← irem u64 v (wrap u64 m); Ok (wrap u32 r)) = Ok (v mod m)).
  { intros H. rewrite u64_range in H. rewrite (wrap_id u64 m) by (try reflexivity; rewrite u64_range; lia).
    rewrite irem_pos; [|cbn; lia|rewrite u64_range; lia..|lia|lia]. cbn [mbind res_bind]. rewrite W. reflexivity. }
  assert (U128 : in_ty u128 v -> (r ← irem u128 v (wrap u128 m); Ok (wrap u32 r)) = Ok (v mod m)).
  { intros H. rewrite u128_range in H. rewrite (wrap_id u128 m) by (try reflexivity; rewrite u128_range; lia).
    rewrite irem_pos; [|cbn; lia|rewrite u128_range; lia..|lia|lia]. cbn [mbind res_bind]. rewrite W. reflexivity. }
  unfold in_ty, it_min, it_max in Hv.
  repeat (apply elem_of_cons in HT as [->|HT]); [..|inversion HT]; cbn [it_signed it_bits i8 i16 i32 i64 i128 isize u8 u16 u32 u64 u128 usize] in *;
    match goal with |- context [if ?b then _ else _] => let b' := eval vm_compute in b in change b with b' end; cbv iota;
    try (apply S64; rewrite i64_range; cbn in Hv; lia).
  - apply S128. exact Hv.
  - apply U32. rewrite u32_range. cbn in Hv. lia.
  - apply U32. rewrite u32_range. cbn in Hv. lia.
  - apply U32. exact Hv.
  - apply U64. exact Hv.
  - apply U128. exact Hv.
  - apply U64. exact Hv.
Qed.

(** ** Ring operations *)
Lemma add_ok m a b : 1 <= m <= 2 ^ 31 -> 0 <= a < m -> 0 <= b < m -> mi_add m a b = Ok ((a + b) mod m).
Proof.
  intros Hm Ha Hb. unfold mi_add. rewrite iadd_ok by (rewrite u32_range; lia). cbn [mbind res_bind].
  destruct (Z.leb_spec m (a + b)).
  - rewrite isub_ok by (rewrite u32_range; lia). f_equal. apply (Z.mod_unique_pos _ m 1); lia.
  - f_equal. symmetry. apply Z.mod_small. lia.
Qed.

Lemma sub_ok m a b : 1 <= m <= 2 ^ 31 -> 0 <= a < m -> 0 <= b < m -> mi_sub m a b = Ok ((a - b) mod m).
Proof.
  intros Hm Ha Hb. unfold mi_sub. rewrite !wrap_u32. destruct (Z.le_gt_cases b a).
  - rewrite (Z.mod_small (a - b)) by lia. destruct (Z.leb_spec m (a - b)); [lia|]. f_equal. symmetry. apply Z.mod_small. lia.
  - assert (E : (a - b) mod 2 ^ 32 = a - b + 2 ^ 32) by (symmetry; apply (Z.mod_unique_pos _ _ (-1)); lia). rewrite E.
    destruct (Z.leb_spec m (a - b + 2 ^ 32)); [|lia]. f_equal. 
    replace (a - b + 2 ^ 32 + m) with (a - b + m + 1 * 2 ^ 32) by lia. rewrite Z_mod_plus_full, Z.mod_small by lia.
    apply (Z.mod_unique_pos _ m (-1)); lia.
Qed.

Lemma neg_ok m a : 1 <= m <= 2 ^ 31 -> 0 <= a < m -> mi_neg m a = Ok ((- a) mod m).
Proof. intros Hm Ha. unfold mi_neg. rewrite sub_ok by lia. reflexivity. Qed.

Definition mul_ok (m : Z) (mul : Z -> Z -> res Z) : Prop :=
  (forall a b, 0 <= a < m -> 0 <= b < m -> mul a b = Ok (a * b mod m)) /\ (m = 1 -> mul 1 0 = Ok 0).

Lemma static_mul_ok m : 1 <= m < 2 ^ 32 -> mul_ok m (static_mul m).
Proof.
  intros Hm. split.
  - intros a b Ha Hb. unfold static_mul.
    assert (H : 0 <= a * b <= (2 ^ 32 - 1) * (2 ^ 32 - 1)) by (clear -Ha Hb Hm; nia).
    assert (in_ty u64 (a * b)) by (rewrite u64_range; lia).
    rewrite imul_ok by assumption. cbn [mbind res_bind].
    rewrite irem_pos; [|cbn; lia|assumption|rewrite u64_range; lia|lia|lia]. cbn [mbind res_bind].
    pose proof (Z.mod_pos_bound (a * b) m ltac:(lia)). rewrite wrap_u32, (Z.mod_small (_ mod m)) by lia. reflexivity.
  - intros ->. vm_compute. reflexivity.
Qed.

Lemma barrett_new_ok m : 1 <= m <= 2 ^ 32 - 1 -> exists br, barrett_new m = Ok br /\ barrett_umod br = m.
Proof.
  intros Hm. unfold barrett_new. rewrite wrap_u64. change (-1 mod 2 ^ 64) with (2 ^ 64 - 1).
  rewrite idiv_pos; [|cbn; lia|rewrite u64_range; lia..|lia|lia]. cbn [mbind res_bind].
  eexists. split; reflexivity.
Qed.

Lemma dynamic_mul_ok m br : 1 <= m <= 2 ^ 31 -> barrett_new m = Ok br -> mul_ok m (barrett_mul br).
Proof.
  intros Hm E. split.
  - intros a b Ha Hb. destruct (barrett_ok m a b Hm Ha Hb) as (br' & E' & _ & H). congruence.
  - intros ->. injection E as <-. vm_compute. reflexivity.
Qed.

(** ** pow *)
Lemma mi_pow_step_eq mul n x r : mi_pow_step mul (n, x, r) =
  if 0 <? n then
    r ← (if Z.land n 1 =? 1 then mul r x else Ok r);
    x ← mul x x;
    Ok (inl (Z.shiftr n 1, x, r))
  else Ok (inr r).
Proof. reflexivity. Qed.

Lemma pow_ok m mul : 1 <= m -> mul_ok m mul -> forall x n, 0 <= x < m -> in_ty u64 n -> (2 <= m \/ 0 < n) ->
  mi_pow mul x n = Ok (x ^ n mod m).
Proof.
  intros Hm [Hmul H1] x n Hx Hn Hc. rewrite u64_range in Hn. unfold mi_pow.
  destruct (rloop_inv_idx (fun k '(n', x', r) => 0 <= n' < 2 ^ Z.of_nat k /\ 0 <= x' < m /\
      (0 <= r < m \/ (m = 1 /\ r = 1 /\ 0 < n')) /\ (r * x' ^ n') mod m = x ^ n mod m)
    (fun r => r = x ^ n mod m) (mi_pow_step mul)) with (fuel := 66%nat) (m := 64%nat) (s := (n, x, 1)) as (r & -> & ->).
  - intros k [[n' x'] r] (Hn' & Hx' & Hr & HI). rewrite mi_pow_step_eq.
    destruct (Z.ltb_spec 0 n') as [Hpos|Hz].
    2:{ eexists. split; [reflexivity|]. cbv beta iota. assert (n' = 0) as -> by lia.
        rewrite Z.pow_0_r, Z.mul_1_r in HI. rewrite <- HI. symmetry. apply Z.mod_small. destruct Hr as [|(?&?&?)]; lia. }
    destruct k as [|k]; [change (2 ^ Z.of_nat 0) with 1 in Hn'; lia|].
    rewrite Nat2Z.inj_succ, Z.pow_succ_r in Hn' by lia.
    rewrite land1, Z.shiftr_div_pow2 by lia. change (2 ^ 1) with 2.
    assert (Hn2 : 0 <= n' / 2 < 2 ^ Z.of_nat k) by (split; [apply Z.div_pos; lia|apply Z.div_lt_upper_bound; lia]).
    rewrite (pow_double x' n') in HI by lia.
    assert (B : forall u, 0 <= u mod m < m) by (intros; apply Z.mod_pos_bound; lia).
    pose proof (Z.mod_pos_bound n' 2 ltac:(lia)) as B2. pose proof (Z.div_mod n' 2 ltac:(lia)) as E2.
    destruct (Z.eqb_spec (n' mod 2) 1) as [E|E].
    + assert (Em : mul r x' = Ok (r * x' mod m)).
      { destruct Hr as [Hr|(Em1 & -> & _)]; [apply Hmul; assumption|]. assert (x' = 0) as -> by lia. rewrite H1 by exact Em1.
        f_equal. }
      rewrite Em. cbn [mbind res_bind]. rewrite Hmul by assumption. cbn [mbind res_bind].
      eexists. split; [reflexivity|]. cbv beta iota. exists k. split; [lia|]. split; [exact Hn2|]. split; [apply B|]. split; [left; apply B|].
      rewrite <- HI. rewrite E. change (0 <? 1) with true. cbv iota. rewrite Z.mul_assoc. rewrite Zmult_mod_idemp_l.
      rewrite (Zmult_mod (r * x')), <- (Zpower_mod (x' * x')) by lia. rewrite <- Zmult_mod. reflexivity.
    + cbn [mbind res_bind]. rewrite Hmul by assumption. cbn [mbind res_bind].
      eexists. split; [reflexivity|]. cbv beta iota. exists k. split; [lia|]. split; [exact Hn2|]. split; [apply B|].
      assert (E0 : n' mod 2 = 0) by lia. split. { destruct Hr as [Hr|(Em1 & Er & _)]; [left; exact Hr|right; split; [exact Em1|split; [exact Er|lia]]]. }
      rewrite <- HI. rewrite E0. change (0 <? 0) with false. cbv iota. rewrite Z.mul_1_l.
      rewrite (Zmult_mod r), <- (Zpower_mod (x' * x')) by lia. rewrite <- Zmult_mod. reflexivity.
  - change (2 ^ Z.of_nat 64) with (2 ^ 64). split; [lia|]. split; [exact Hx|]. split; [destruct (Z.eq_dec m 1); [right; lia|left; lia]|].
    rewrite Z.mul_1_l. reflexivity.
  - lia.
  - reflexivity.
Qed.

(** ** inv *)
Lemma inv_non_prime_ok m a : 1 <= m < 2 ^ 32 -> 0 <= a < m ->
  (Z.gcd a m = 1 -> exists y, inv_non_prime m a = Ok y /\ 0 <= y < m /\ (m | a * y - 1)) /\
  (Z.gcd a m <> 1 -> inv_non_prime m a = Panic).
Proof.
  intros Hm Ha. unfold inv_non_prime.
  destruct (inv_gcd_ok a m) as (g & x & -> & Hg & Hd & Hx); [rewrite i64_range; lia..|lia|]. cbn [mbind res_bind].
  assert (Hgp : 1 <= g).
  { rewrite Hg. pose proof (Z.gcd_nonneg a m). destruct (Z.eq_dec (Z.gcd a m) 0) as [E|]; [apply Z.gcd_eq_0_r in E; lia|lia]. }
  split; intros H.
  - assert (g = 1) by congruence. subst g. rewrite H in *. change (negb (1 =? 1)) with false. cbv iota.
    rewrite Z.div_1_r in Hx. rewrite new_ok; [|unfold prim_types; repeat constructor|rewrite i64_range; lia|lia].
    rewrite Z.mod_small by lia. exists x. split; [reflexivity|]. split; [lia|exact Hd].
  - destruct (Z.eqb_spec g 1); [congruence|]. reflexivity.
Qed.

Lemma static_inv_prime_ok m a : prime m -> in_ty i32 m -> 0 <= a < m ->
  (a <> 0 -> exists y, static_inv m true a = Ok y /\ 0 <= y < m /\ (m | a * y - 1)) /\
  (a = 0 -> static_inv m true a = Panic).
Proof.
  intros Hp Hm Ha. pose proof (prime_ge_2 m Hp) as H2. unfold static_inv. split; [|intros ->; reflexivity].
  intros Hn. destruct (Z.eqb_spec a 0); [contradiction|].
  rewrite chk_ok by exact Hm. cbn [mbind res_bind].
  destruct (is_prime_ok m Hm) as (b & -> & Hb). cbn [mbind res_bind].
  assert (b = true) as -> by (apply Hb, prime_spec, Hp). cbn [rassert mbind res_bind].
  rewrite i32_range in Hm.
  rewrite isub_ok by (rewrite u32_range; lia). cbn [mbind res_bind].
  rewrite (pow_ok m) by (try lia; try (apply static_mul_ok; lia); rewrite u64_range; lia).
  exists (a ^ (m - 2) mod m). split; [reflexivity|]. pose proof (Z.mod_pos_bound (a ^ (m - 2)) m ltac:(lia)). split; [lia|].
  apply Z.mod_divide; [lia|]. rewrite Zminus_mod, Zmult_mod_idemp_r, <- Z.pow_succ_r by lia.
  replace (Z.succ (m - 2)) with (m - 1) by lia.
  rewrite (@fermat_Z m a Hp) by (intros Hd; apply Z.divide_pos_le in Hd; lia).
  rewrite (Z.mod_small 1) by lia. reflexivity.
Qed.

(** ** A context for Z/m *)
Definition ctx_ok (c : modctx) (m : Z) : Prop := mc_m c = m /\ mul_ok m (mc_mul c).

Lemma static_ctx_ok m hint : 1 <= m < 2 ^ 32 -> ctx_ok (static_ctx m hint) m.
Proof. intros Hm. split; [reflexivity|apply static_mul_ok; exact Hm]. Qed.
Lemma dynamic_ctx_ok m br : 1 <= m <= 2 ^ 31 -> barrett_new m = Ok br -> ctx_ok (dynamic_ctx br) m.
Proof.
  intros Hm E. split; [|apply dynamic_mul_ok; assumption].
  destruct (barrett_new_ok m) as (br' & E' & H); [lia|]. cbn. congruence.
Qed.

Lemma mod_of_mod z m : 0 < m -> mod_of z m (z mod m).
Proof.
  intros Hm. split; [apply Z.mod_pos_bound; lia|]. exists (z / m). rewrite (Z.div_mod z m) at 1 by lia. lia.
Qed.
Lemma mod_of_eq z m v : 0 < m -> mod_of z m v -> v = z mod m.
Proof. intros Hm [Hv [c Hc]]. apply (Z.mod_unique_pos z m c); lia. Qed.

(** Variables hold the residues of the integers they stand for. *)
Definition env_ok (m : Z) (env : list Z) (senv : list (option Z)) : Prop :=
  forall i z, senv !! i = Some (Some z) -> env !! i = Some (z mod m).

Lemma meval_ok c m env senv e : 1 <= m <= 2 ^ 31 -> ctx_ok c m -> env_ok m env senv -> mvalid m senv e ->
  meval c env e = Ok (mden senv e mod m).
Proof.
  intros Hm [Hc [Hmul H1]] Henv.
  assert (B : forall z, 0 <= z mod m < m) by (intros; apply Z.mod_pos_bound; lia).
  assert (ADD : forall x y, mi_add m (x mod m) (y mod m) = Ok ((x + y) mod m)).
  { intros. rewrite add_ok by auto. rewrite <- Zplus_mod. reflexivity. }
  assert (SUB : forall x y, mi_sub m (x mod m) (y mod m) = Ok ((x - y) mod m)).
  { intros. rewrite sub_ok by auto. rewrite <- Zminus_mod. reflexivity. }
  assert (MUL : forall x y, mc_mul c (x mod m) (y mod m) = Ok ((x * y) mod m)).
  { intros. rewrite Hmul by auto. rewrite <- Zmult_mod. reflexivity. }
  assert (NEW : forall T v, T ∈ prim_types -> in_ty T v -> mi_new m T v = Ok (v mod m)) by (intros; apply new_ok; auto; lia).
  induction e; cbn [mvalid mden meval]; rewrite ?Hc.
  - intros [z Hz]. rewrite Hz. apply vget_ok, Henv, Hz.
  - intros [? ?]. apply NEW; assumption.
  - intros Hv. rewrite Z.mod_small by lia. reflexivity.
  - intros _. rewrite Z.mod_small by lia. reflexivity.
  - intros [Ha Hb]. rewrite IHe1, IHe2 by assumption. cbn [mbind res_bind]. apply ADD.
  - intros [Ha Hb]. rewrite IHe1, IHe2 by assumption. cbn [mbind res_bind]. apply SUB.
  - intros [Ha Hb]. rewrite IHe1, IHe2 by assumption. cbn [mbind res_bind]. apply MUL.
  - intros Ha. rewrite IHe by assumption. cbn [mbind res_bind]. unfold mi_neg.
    rewrite <- (Z.mod_small 0 m) at 1 by lia. rewrite SUB. reflexivity.
  - intros (Ha & HT & Hv). rewrite IHe, NEW by assumption. cbn [mbind res_bind]. apply ADD.
  - intros (Ha & HT & Hv). rewrite IHe, NEW by assumption. cbn [mbind res_bind]. apply SUB.
  - intros (Ha & HT & Hv). rewrite IHe, NEW by assumption. cbn [mbind res_bind]. apply MUL.
  - intros (Ha & Hn & Hcc). rewrite IHe by assumption. cbn [mbind res_bind].
    rewrite (pow_ok m) by (auto; try lia; split; assumption). f_equal. symmetry. apply Zpower_mod. lia.
Qed.

(** ** Division *)
Lemma mi_div_ok c m a b : 1 <= m -> mul_ok m (mc_mul c) -> 0 <= a < m -> 0 <= b < m ->
  (exists y, mc_inv c b = Ok y /\ 0 <= y < m /\ (m | b * y - 1)) ->
  exists q, mi_div c a b = Ok q /\ 0 <= q < m /\ (m | q * b - a).
Proof.
  intros Hm [Hmul _] Ha Hb (y & Hy & Hyr & [k Hk]). unfold mi_div. rewrite Hy. cbn [mbind res_bind].
  rewrite Hmul by assumption. exists (a * y mod m). split; [reflexivity|]. split; [apply Z.mod_pos_bound; lia|].
  apply Z.mod_divide; [lia|]. rewrite Zminus_mod, Zmult_mod_idemp_l, <- Zminus_mod.
  apply Z.mod_divide; [lia|]. exists (a * k). replace (a * y * b - a) with (a * (b * y - 1)) by ring. rewrite Hk. ring.
Qed.

Lemma unit_unique m b x y : Z.gcd b m = 1 -> (m | b * x - b * y) -> (m | x - y).
Proof.
  intros Hg Hd. apply Gauss with b.
  - replace (b * (x - y)) with (b * x - b * y) by ring. exact Hd.
  - apply Zgcd_1_rel_prime. rewrite Z.gcd_comm. exact Hg.
Qed.

(** ** Sum and product *)
Lemma sum_ok m c l : 1 <= m <= 2 ^ 31 -> mc_m c = m -> Forall (fun x => 0 <= x < m) l -> 
  mi_sum c l = Ok (foldr Z.add 0 l mod m).
Proof.
  intros Hm Hc Hl. unfold mi_sum. rewrite Hc.
  assert (H : forall acc, 0 <= acc < m -> rfor l (fun x acc => mi_add m acc x) acc = Ok ((acc + foldr Z.add 0 l) mod m)).
  { induction Hl as [|x l Hx Hl IH]; intros acc Ha; cbn [rfor foldr].
    - rewrite Z.add_0_r, Z.mod_small by lia. reflexivity.
    - rewrite add_ok by assumption. cbn [mbind res_bind]. rewrite IH by (apply Z.mod_pos_bound; lia).
      rewrite Zplus_mod_idemp_l. f_equal. f_equal. lia. }
  rewrite H by lia. reflexivity.
Qed.
Lemma product_ok m c l : 2 <= m -> mul_ok m (mc_mul c) -> Forall (fun x => 0 <= x < m) l ->
  mi_product c l = Ok (foldr Z.mul 1 l mod m).
Proof.
  intros Hm [Hc _] Hl. unfold mi_product.
  assert (H : forall acc, 0 <= acc < m -> rfor l (fun x acc => mc_mul c acc x) acc = Ok ((acc * foldr Z.mul 1 l) mod m)).
  { induction Hl as [|x l Hx Hl IH]; intros acc Ha; cbn [rfor foldr].
    - rewrite Z.mul_1_r, Z.mod_small by lia. reflexivity.
    - rewrite Hc by assumption. cbn [mbind res_bind]. rewrite IH by (apply Z.mod_pos_bound; lia).
      rewrite Zmult_mod_idemp_l. f_equal. f_equal. ring. }
  rewrite H by lia. rewrite Z.mul_1_l. reflexivity.
Qed.

(** ** Single-threaded programs over DynamicModInt *)
Lemma drun_ok m br env senv ops outs : 1 <= m <= 2 ^ 31 -> barrett_new m = Ok br -> length env = length senv -> env_ok m env senv ->
  dspec_run (m, senv) ops outs -> drun (br, env) ops = Ok outs.
Proof.
  intros Hm Hbr Hlen Henv Hrun. remember (m, senv) as s eqn:Es. revert m senv Es br env Hm Hbr Hlen Henv.
  induction Hrun as [s|s o ops s' out outs Hstep Hrun IH]; intros m senv -> br env Hm Hbr Hlen Henv; [reflexivity|].
  cbn [drun]. unfold dstep at 1.
  assert (Hpush : forall v z, v = z mod m -> length (env ++ [v]) = length (senv ++ [Some z]) /\ env_ok m (env ++ [v]) (senv ++ [Some z])).
  { intros v z ->. split; [rewrite !app_length; cbn; lia|]. intros i z' Hi.
    destruct (decide (i < length senv)%nat) as [Hl|Hl].
    - rewrite lookup_app_l in Hi by exact Hl. rewrite lookup_app_l by lia. apply Henv, Hi.
    - rewrite lookup_app_r in Hi by lia. rewrite lookup_app_r by lia. rewrite Hlen.
      destruct (i - length senv)%nat; cbn in *; [|discriminate]. injection Hi as ->. reflexivity. }
  assert (B : forall z, 0 <= z mod m < m) by (intros; apply Z.mod_pos_bound; lia).
  assert (Ub : (barrett_umod br =? m) = true) by (apply Z.eqb_eq; destruct (barrett_new_ok m) as (? & ? & ?); [lia|congruence]).
  pose proof (dynamic_ctx_ok m br Hm Hbr) as Hctx.
  inversion Hstep; subst; clear Hstep; pose proof (proj1 (Z.eqb_eq _ _) Ub) as U; clear Ub.
  - unfold set_modulus. match goal with H : 1 <= ?k <= 2 ^ 31 |- _ => rename k into m'; rename H into Hm' end.
    destruct (Z.eqb_spec m' 0); [lia|]. destruct (barrett_new_ok m') as (br' & Hbr' & _); [lia|]. rewrite Hbr'. cbn [mbind res_bind].
    erewrite IH; [reflexivity|reflexivity|exact Hm'|exact Hbr'|rewrite map_length; exact Hlen|].
    intros i z Hi. rewrite list_lookup_fmap in Hi. destruct (senv !! i); cbn in Hi; discriminate.
  - cbn [mbind res_bind]. erewrite IH; [|reflexivity|eassumption..]. cbn [mbind res_bind]. rewrite U. reflexivity.
  - rewrite (meval_ok _ m _ senv) by assumption. cbn [mbind res_bind].
    match goal with H : mod_of _ _ v |- _ => apply mod_of_eq in H; [|lia]; subst v end.
    destruct (Hpush (mden senv e mod m) (mden senv e) eq_refl) as [P1 P2].
    erewrite IH; [reflexivity|reflexivity|eassumption..].
  - match goal with H : senv !! i = Some (Some x) |- _ => rename H into Ei end.
    match goal with H : mod_of z m z |- _ => rename H into Hz end.
    match goal with H : (m | x * z - 1) |- _ => rename H into Hd end.
    rewrite (vget_ok env i (x mod m)) by (apply Henv, Ei). cbn [mbind res_bind dynamic_ctx mc_inv]. rewrite U.
    assert (Hg : Z.gcd (x mod m) m = 1).
    { rewrite Z.gcd_mod by lia. rewrite Z.gcd_comm. destruct Hd as [k Hk]. apply Z.bezout_1_gcd. exists z, (- k). lia. }
    destruct (inv_non_prime_ok m (x mod m)) as [(y & -> & Hy & Hyd) _]; [lia|apply B|exact Hg|]. cbn [mbind res_bind].
    assert (y = z).
    { destruct Hz as [Hz _]. assert (Hyz : (m | y - z)).
      { apply unit_unique with (x mod m); [exact Hg|].
        replace (x mod m * y - x mod m * z) with ((x mod m * y - 1) - (x * z - 1) + (x - x mod m) * z) by ring.
        apply Z.divide_add_r; [apply Z.divide_sub_r; assumption|]. apply Z.divide_mul_l.
        exists (x / m). rewrite (Z.div_mod x m) at 1 by lia. ring. }
      destruct Hyz as [k Hk]. assert (k = 0) by nia. lia. }
    subst y. destruct (Hpush z z) as [P1 P2]; [symmetry; apply Z.mod_small; lia|].
    erewrite IH; [reflexivity|reflexivity|eassumption..].
  - match goal with H : senv !! i = Some (Some x) |- _ => rename H into Ei end.
    match goal with H : senv !! j = Some (Some y) |- _ => rename H into Ej end.
    match goal with H : mod_of z m z |- _ => rename H into Hz end.
    match goal with H : (m | z * y - x) |- _ => rename H into Hd end.
    match goal with H : Z.gcd y m = 1 |- _ => rename H into Hg end.
    rewrite (vget_ok env i (x mod m)) by (apply Henv, Ei). cbn [mbind res_bind].
    rewrite (vget_ok env j (y mod m)) by (apply Henv, Ej). cbn [mbind res_bind].
    assert (Hg' : Z.gcd (y mod m) m = 1) by (rewrite Z.gcd_mod by lia; rewrite Z.gcd_comm; exact Hg).
    destruct (mi_div_ok (dynamic_ctx br) m (x mod m) (y mod m)) as (q & -> & Hq & Hqd); [lia|apply Hctx|apply B|apply B| |].
    { cbn [mc_inv dynamic_ctx]. rewrite U. apply inv_non_prime_ok; [lia|apply B|exact Hg']. }
    cbn [mbind res_bind].
    assert (q = z).
    { destruct Hz as [Hz _]. assert (Hqz : (m | q - z)).
      { apply unit_unique with (y mod m); [exact Hg'|].
        replace (y mod m * q - y mod m * z) with ((q * (y mod m) - x mod m) - (z * y - x) + (y - y mod m) * z - (x - x mod m)) by ring.
        assert (forall w, (m | w - w mod m)) by (intros w; exists (w / m); rewrite (Z.div_mod w m) at 1 by lia; ring).
        apply Z.divide_sub_r; [|auto]. apply Z.divide_add_r; [apply Z.divide_sub_r; assumption|]. apply Z.divide_mul_l. auto. }
      destruct Hqz as [k Hk]. assert (k = 0) by nia. lia. }
    subst q. destruct (Hpush z z) as [P1 P2]; [symmetry; apply Z.mod_small; lia|].
    erewrite IH; [reflexivity|reflexivity|eassumption..].
Qed.
Close Scope Z_scope.
