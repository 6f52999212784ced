From Coq Require Import Znumtheory Zpow_facts.
From Verif Require Import Prelude IntModel NumProof IMathModel IMathSpec IMathProof IMathRoot ModIntModel ModIntSpec ModIntProof UnreducedSpec.
Open Scope Z_scope.

(** What mul_mod returns for any modulus and any operands. *)
Lemma mul_mod_any m a b im : 2 <= m < 2 ^ 32 -> 0 <= a < 2 ^ 32 -> 0 <= b < 2 ^ 32 -> im = (2 ^ 64 - 1) / m + 1 ->
  mul_mod a b m im = Ok (if (a * b / m <? a * b * im / 2 ^ 64) && (a * b mod m <? 2 * m - 2 ^ 32) then a * b mod m + 2 ^ 32 - m else a * b mod m).
Proof.
  intros Hm Ha Hb Him.
  assert (Hz : 0 <= a * b <= (2 ^ 32 - 1) * (2 ^ 32 - 1)) by (clear -Ha Hb; nia).
  pose proof (Z.div_mod (2 ^ 64 - 1) m ltac:(lia)) as E1. pose proof (Z.mod_pos_bound (2 ^ 64 - 1) m ltac:(lia)) as B1.
  set (r0 := (2 ^ 64 - 1) mod m) in *. set (q0 := (2 ^ 64 - 1) / m) in *.
  assert (Er : im * m = 2 ^ 64 + (m - 1 - r0)) by (subst im; lia).
  assert (Him63 : 2 ^ 32 <= im <= 2 ^ 63).
  { subst im. assert (0 <= q0) by (apply Z.div_pos; lia). assert (q0 * 2 <= 2 ^ 64 - 1) by (clear -E1 B1 Hm H; nia).
    assert (2 ^ 32 <= q0 + 1); [|lia]. clear -Er Hm B1. assert (2 ^ 32 * 2 ^ 32 <= (q0 + 1) * m) by (change (2 ^ 32 * 2 ^ 32) with (2 ^ 64); lia). nia. }
  clearbody r0 q0.
  unfold mul_mod. rewrite imul_ok by (rewrite u64_range; change (2 ^ 64) with (2 ^ 32 * 2 ^ 32); lia). cbn [mbind res_bind].
  set (z := a * b) in *.
  assert (Hz64 : 0 <= z < 2 ^ 64) by (change (2 ^ 64) with (2 ^ 32 * 2 ^ 32); lia).
  assert (Hp : 0 <= z * im <= 2 ^ 64 * 2 ^ 63) by (clear -Hz64 Him63; nia).
  rewrite imul_ok by (rewrite u128_range; change (2 ^ 64 * 2 ^ 63) with (2 ^ 127) in Hp; lia). cbn [mbind res_bind].
  rewrite Z.shiftr_div_pow2 by lia.
  pose proof (Z.div_mod z m ltac:(lia)) as E2. pose proof (Z.mod_pos_bound z m ltac:(lia)) as B2.
  set (c := z / m) in *. set (d := z mod m) in *. clearbody c d z.
  set (r := m - 1 - r0) in *. assert (Hr : 0 <= r < m) by lia. clearbody r.
  assert (Hc : 0 <= c) by (clear -E2 B2 Hz Hm; nia). assert (Hcm : c * m <= z) by lia.
  assert (Ez : z * im = c * 2 ^ 64 + (c * r + d * im)).
  { replace (z * im) with (c * (im * m) + d * im) by (rewrite E2; ring). rewrite Er. ring. }
  assert (Hcr : 0 <= c * r <= c * m) by (clear -Hc Hr; nia).
  assert (Hdi : 0 <= d * im <= 2 ^ 64 + r - im).
  { split; [clear -B2 Him63; nia|]. assert (d * im <= (m - 1) * im) by (clear -B2 Him63; nia). lia. }
  assert (Hx : z * im / 2 ^ 64 = c \/ z * im / 2 ^ 64 = c + 1).
  { rewrite Ez. rewrite Z.add_comm, Z.div_add by lia.
    assert (Hlow : 0 <= c * r + d * im < 2 * 2 ^ 64) by lia. clear -Hlow.
    set (w := c * r + d * im) in *. pose proof (Z.div_pos w (2 ^ 64) ltac:(lia) ltac:(lia)).
    pose proof (Z.div_lt_upper_bound w (2 ^ 64) 2 ltac:(lia) ltac:(lia)). lia. }
  assert (Hc63 : c < 2 ^ 63). { clear -Hcm Hz64 Hm Hc. assert (c * 2 <= c * m) by nia. lia. }
  assert (Hw : forall x, (x = c \/ x = c + 1) -> wrap u64 x = x).
  { intros x H. rewrite wrap_u64. apply Z.mod_small. lia. }
  rewrite (Hw _ Hx). rewrite !wrap_u64, !wrap_u32.
  rewrite (Zminus_mod_idemp_r z).
  assert (M64 : forall y, (y mod 2 ^ 64) mod 2 ^ 32 = y mod 2 ^ 32).
  { intros y. symmetry. apply Zmod_div_mod; [lia..|]. exists (2 ^ 32). reflexivity. }
  rewrite M64.
  destruct Hx as [-> | ->].
  - rewrite Z.ltb_irrefl. cbn [andb]. replace (z - c * m) with d by lia. rewrite Z.mod_small by lia.
    destruct (Z.leb_spec m d); [lia|]. reflexivity.
  - rewrite (proj2 (Z.ltb_lt c (c + 1))) by lia. cbn [andb].
    replace (z - (c + 1) * m) with (d - m) by lia.
    replace ((d - m) mod 2 ^ 32) with (2 ^ 32 + d - m).
    2:{ symmetry. rewrite <- (Z_mod_plus_full (d - m) 1). rewrite Z.mod_small by lia. lia. }
    destruct (Z.leb_spec m (2 ^ 32 + d - m)).
    + rewrite (proj2 (Z.ltb_ge d (2 * m - 2 ^ 32))) by lia.
      replace (2 ^ 32 + d - m + m) with (d + 1 * 2 ^ 32) by lia. rewrite Z_mod_plus_full.
      rewrite Z.mod_small by lia. reflexivity.
    + rewrite (proj2 (Z.ltb_lt d (2 * m - 2 ^ 32))) by lia. f_equal. lia.
Qed.

Lemma barrett_of m : 2 <= m < 2 ^ 32 -> set_modulus m = Ok (Barrett m ((2 ^ 64 - 1) / m + 1)).
Proof.
  intros Hm. unfold set_modulus, barrett_new. destruct (Z.eqb_spec m 0); [lia|]. rewrite !wrap_u64.
  change (-1 mod 2 ^ 64) with (2 ^ 64 - 1).
  rewrite idiv_pos; [|cbn; lia|rewrite u64_range; lia..|lia|lia]. cbn [mbind res_bind]. do 2 f_equal. rewrite wrap_u64. apply Z.mod_small.
  pose proof (Z.div_lt_upper_bound (2 ^ 64 - 1) m (2 ^ 63) ltac:(lia) ltac:(nia)).
  pose proof (Z.div_pos (2 ^ 64 - 1) m ltac:(lia) ltac:(lia)). lia.
Qed.

(** A product that reduces operands of any size. *)
Definition mul_any (m : Z) (mul : Z -> Z -> res Z) : Prop :=
  forall a b, 0 <= a < 2 ^ 32 -> 0 <= b < 2 ^ 32 -> mul a b = Ok (a * b mod m).

Lemma dynamic_mul_any m br : 2 <= m <= 2 ^ 31 -> set_modulus m = Ok br -> mul_any m (barrett_mul br).
Proof.
  intros Hm E a b Ha Hb. rewrite barrett_of in E by lia. injection E as <-. unfold barrett_mul. cbn [br_m br_im].
  rewrite (mul_mod_any m a b _) by (reflexivity || lia). pose proof (Z.mod_pos_bound (a * b) m ltac:(lia)).
  rewrite (proj2 (Z.ltb_ge (a * b mod m) (2 * m - 2 ^ 32))) by lia. rewrite andb_false_r. reflexivity.
Qed.
Lemma static_mul_any m : 1 <= m < 2 ^ 32 -> mul_any m (static_mul m).
Proof.
  intros Hm a b Ha Hb. unfold static_mul.
  assert (H : 0 <= a * b <= (2 ^ 32 - 1) * (2 ^ 32 - 1)) by (clear -Ha Hb; nia).
  rewrite imul_ok by (rewrite u64_range; change (2 ^ 64) with (2 ^ 32 * 2 ^ 32); lia). cbn [mbind res_bind].
  rewrite irem_pos; [|cbn; lia|rewrite u64_range; change (2 ^ 64) with (2 ^ 32 * 2 ^ 32); lia|rewrite u64_range; lia|lia|lia]. cbn [mbind res_bind].
  rewrite wrap_u32. f_equal. apply Z.mod_small. pose proof (Z.mod_pos_bound (a * b) m ltac:(lia)). lia.
Qed.

Lemma mul_any_ok m mul : 2 <= m < 2 ^ 32 -> mul_any m mul -> mul_ok m mul.
Proof. intros Hm H. split; [|lia]. intros a b Ha Hb. apply H; lia. Qed.

(** The first turn of pow reduces its argument: x and x * 1 have the same powers. *)
Lemma pow_any m mul x n : 2 <= m < 2 ^ 32 -> mul_any m mul -> 0 <= x < 2 ^ 32 -> in_ty u64 n -> mi_pow mul x n = Ok (x ^ n mod m).
Proof.
  intros Hm Hmul Hx Hn. pose proof (mul_any_ok m mul Hm Hmul) as Hok.
  pose proof (Z.mod_pos_bound x m ltac:(lia)) as B.
  pose proof (pow_ok m mul ltac:(lia) Hok (x mod m) n B Hn ltac:(lia)) as E.
  rewrite <- (Zpower_mod x n m) in E by lia. rewrite <- E. unfold mi_pow. change 66%nat with (S 65). cbn [rloop].
  rewrite !mi_pow_step_eq. destruct (0 <? n); [|reflexivity].
  rewrite (Hmul (x mod m) (x mod m)), (Hmul x x) by lia. rewrite <- Zmult_mod.
  destruct (Z.land n 1 =? 1); [|reflexivity]. rewrite !Hmul by lia. rewrite !Z.mul_1_l, Zmod_mod. reflexivity.
Qed.

Lemma inv_non_prime_any m a : 1 <= m < 2 ^ 32 -> 0 <= a < 2 ^ 32 ->
  (Z.gcd a m = 1 -> exists y, inv_non_prime m a = Ok y /\ 0 <= y < m /\ (m | a * y - 1)) /\
  (Z.gcd a m <> 1 -> inv_non_prime m a = Panic).
Proof.
  intros Hm Ha. unfold inv_non_prime.
  destruct (inv_gcd_ok a m) as (g & x & -> & Hg & Hd & Hx); [rewrite i64_range; lia..|lia|]. cbn [mbind res_bind].
  assert (Hgp : 1 <= g).
  { rewrite Hg. pose proof (Z.gcd_nonneg a m). destruct (Z.eq_dec (Z.gcd a m) 0) as [E|]; [apply Z.gcd_eq_0_r in E; lia|lia]. }
  split; intros H.
  - assert (g = 1) by congruence. subst g. rewrite H in *. change (negb (1 =? 1)) with false. cbv iota.
    rewrite Z.div_1_r in Hx. rewrite new_ok; [|unfold prim_types; repeat constructor|rewrite i64_range; lia|lia].
    rewrite Z.mod_small by lia. exists x. split; [reflexivity|]. split; [lia|exact Hd].
  - destruct (Z.eqb_spec g 1); [congruence|]. reflexivity.
Qed.

Lemma static_inv_hint m a : prime m -> m < 2 ^ 31 -> 0 < a < 2 ^ 32 -> static_inv m true a = Ok (a ^ (m - 2) mod m).
Proof.
  intros Hp Hm Ha. pose proof (prime_ge_2 m Hp) as H2. unfold static_inv. destruct (Z.eqb_spec a 0); [lia|].
  assert (Hi : in_ty i32 m) by (rewrite i32_range; lia). rewrite chk_ok by exact Hi. cbn [mbind res_bind].
  destruct (is_prime_ok m Hi) as (b & -> & Hb). cbn [mbind res_bind].
  assert (b = true) as -> by (apply Hb, prime_spec, Hp). cbn [rassert mbind res_bind].
  rewrite isub_ok by (rewrite u32_range; lia). cbn [mbind res_bind].
  apply pow_any; [lia|apply static_mul_any; lia|lia|rewrite u64_range; lia].
Qed.

(** ** Addition and subtraction *)
Lemma add_any m a b : 1 <= m < 2 ^ 32 -> 0 <= a < 2 ^ 32 -> 0 <= b < 2 ^ 32 ->
  mi_add m a b = if a + b <? 2 ^ 32 then Ok (if m <=? a + b then a + b - m else a + b) else Panic.
Proof.
  intros Hm Ha Hb. unfold mi_add. destruct (Z.ltb_spec (a + b) (2 ^ 32)).
  - rewrite iadd_ok by (rewrite u32_range; lia). cbn [mbind res_bind]. destruct (Z.leb_spec m (a + b)); [|reflexivity].
    rewrite isub_ok by (rewrite u32_range; lia). reflexivity.
  - unfold iadd. rewrite (chk_panic u32) by (rewrite u32_range; lia). reflexivity.
Qed.

Lemma sub_any m a b : 1 <= m <= 2 ^ 31 -> 0 <= a < 2 ^ 32 -> 0 <= b < 2 ^ 32 ->
  let d := a - b in
  mi_sub m a b = Ok (if d <? m - 2 ^ 32 then d + 2 ^ 32 else if d <? - m then d + m + 2 ^ 32 else if d <? 0 then d + m else
                     if d <? m then d else if d <? 2 ^ 32 - m then d + m else d + m - 2 ^ 32).
Proof.
  intros Hm Ha Hb d. unfold mi_sub. rewrite !wrap_u32. fold d. assert (Hd : - 2 ^ 32 < d < 2 ^ 32) by lia. clearbody d.
  assert (W : forall x, 0 <= x < 2 ^ 32 -> x mod 2 ^ 32 = x) by (intros; apply Z.mod_small; lia).
  assert (Wp : forall x, 2 ^ 32 <= x < 2 * 2 ^ 32 -> x mod 2 ^ 32 = x - 2 ^ 32) by (intros; symmetry; apply (Z.mod_unique_pos _ _ 1); lia).
  assert (Wn : forall x, - 2 ^ 32 <= x < 0 -> x mod 2 ^ 32 = x + 2 ^ 32) by (intros; symmetry; apply (Z.mod_unique_pos _ _ (-1)); lia).
  destruct (Z.le_gt_cases 0 d).
  - rewrite (W d) by lia. destruct (Z.ltb_spec d (m - 2 ^ 32)); [lia|]. destruct (Z.ltb_spec d (- m)); [lia|]. destruct (Z.ltb_spec d 0); [lia|].
    destruct (Z.ltb_spec d m); destruct (Z.leb_spec m d); try lia; [reflexivity|].
    destruct (Z.ltb_spec d (2 ^ 32 - m)); [rewrite W by lia|rewrite Wp by lia]; reflexivity.
  - rewrite (Wn d) by lia. destruct (Z.leb_spec m (d + 2 ^ 32)); destruct (Z.ltb_spec d (m - 2 ^ 32)); try lia; [|reflexivity].
    destruct (Z.ltb_spec d (- m)); [rewrite W by lia; f_equal; lia|]. destruct (Z.ltb_spec d 0); [|lia]. rewrite Wp by lia. f_equal. lia.
Qed.

(** ** Expressions *)
Lemma ueval_ok c m env e : 2 <= m <= 2 ^ 31 -> mc_m c = m -> mul_any m (mc_mul c) -> uvalid m env e ->
  exists v, meval c env e = Ok v /\ 0 <= v < 2 ^ 32 /\ (m | mden (map Some env) e - v) /\ (settled m env e -> v < m).
Proof.
  intros Hm Hc Hmul.
  assert (B : forall z, 0 <= z mod m < m) by (intros; apply Z.mod_pos_bound; lia).
  assert (D : forall z, (m | z - z mod m)) by (intros z; exists (z / m); pose proof (Z.div_mod z m ltac:(lia)); lia).
  assert (R : forall r z, r = Ok (z mod m) -> forall y, (m | y - z) -> exists v, r = Ok v /\ 0 <= v < 2 ^ 32 /\ (m | y - v) /\ v < m).
  { intros r z -> y Hy. exists (z mod m). pose proof (B z). split; [reflexivity|]. split; [lia|]. split; [|lia].
    replace (y - z mod m) with ((y - z) + (z - z mod m)) by ring. apply Z.divide_add_r; [exact Hy|apply D]. }
  assert (R' : forall r z, r = Ok (z mod m) -> forall y, (m | y - z) -> exists v, r = Ok v /\ 0 <= v < 2 ^ 32 /\ (m | y - v) /\ (True -> v < m)).
  { intros r z E y Hy. destruct (R r z E y Hy) as (v & ? & ? & ? & ?). exists v. auto. }
  assert (NEW : forall T v, T ∈ prim_types -> in_ty T v -> mi_new m T v = Ok (v mod m)) by (intros; apply new_ok; auto; lia).
  assert (DM : forall x y u v, (m | x - u) -> (m | y - v) -> (m | x * y - u * v)).
  { intros x y u v [p Hp] [q Hq]. exists (p * y + q * u). replace x with (u + p * m) by lia. replace y with (v + q * m) by lia. ring. }
  assert (DA : forall x y u v, (m | x - u) -> (m | y - v) -> (m | x + y - (u + v))).
  { intros x y u v [p Hp] [q Hq]. exists (p + q). lia. }
  assert (DS : forall x y u v, (m | x - u) -> (m | y - v) -> (m | x - y - (u - v))).
  { intros x y u v [p Hp] [q Hq]. exists (p - q). lia. }
  induction e; cbn [uvalid mden meval]; rewrite ?Hc.
  - intros (v & E & Hv). exists v. rewrite (vget_ok _ _ _ E), list_lookup_fmap, E. cbn. split; [reflexivity|]. split; [lia|].
    split; [exists 0; lia|]. intros (v' & E' & ?). congruence.
  - intros [HT Hv]. apply (R' _ v); [apply NEW; assumption|exists 0; lia].
  - intros Hv. exists v. split; [reflexivity|]. split; [lia|]. split; [exists 0; lia|auto].
  - intros _. exists 0. split; [reflexivity|]. split; [lia|]. split; [exists 0; lia|lia].
  - intros [[Ha Sa] [Hb Sb]]. destruct (IHe1 Ha) as (x & -> & Hx & Dx & Lx). destruct (IHe2 Hb) as (y & -> & Hy & Dy & Ly). cbn [mbind res_bind].
    specialize (Lx Sa). specialize (Ly Sb). apply (R' _ (x + y)); [apply add_ok; lia|auto].
  - intros [[Ha Sa] [Hb Sb]]. destruct (IHe1 Ha) as (x & -> & Hx & Dx & Lx). destruct (IHe2 Hb) as (y & -> & Hy & Dy & Ly). cbn [mbind res_bind].
    specialize (Lx Sa). specialize (Ly Sb). apply (R' _ (x - y)); [apply sub_ok; lia|auto].
  - intros [Ha Hb]. destruct (IHe1 Ha) as (x & -> & Hx & Dx & Lx). destruct (IHe2 Hb) as (y & -> & Hy & Dy & Ly). cbn [mbind res_bind].
    apply (R' _ (x * y)); [apply Hmul; lia|auto].
  - intros [Ha Sa]. destruct (IHe Ha) as (x & -> & Hx & Dx & Lx). cbn [mbind res_bind]. specialize (Lx Sa).
    apply (R' _ (- x)); [apply neg_ok; lia|]. destruct Dx as [p Hp]. exists (- p). lia.
  - intros [[Ha Sa] [HT Hv]]. destruct (IHe Ha) as (x & -> & Hx & Dx & Lx). rewrite NEW by assumption. cbn [mbind res_bind]. specialize (Lx Sa). pose proof (B v).
    apply (R' _ (x + v mod m)); [apply add_ok; lia|auto].
  - intros [[Ha Sa] [HT Hv]]. destruct (IHe Ha) as (x & -> & Hx & Dx & Lx). rewrite NEW by assumption. cbn [mbind res_bind]. specialize (Lx Sa). pose proof (B v).
    apply (R' _ (x - v mod m)); [apply sub_ok; lia|auto].
  - intros [Ha [HT Hv]]. destruct (IHe Ha) as (x & -> & Hx & Dx & Lx). rewrite NEW by assumption. cbn [mbind res_bind]. pose proof (B v).
    apply (R' _ (x * (v mod m))); [apply Hmul; lia|auto].
  - intros [Ha Hn]. destruct (IHe Ha) as (x & -> & Hx & Dx & Lx). cbn [mbind res_bind].
    apply (R' _ (x ^ n)); [apply pow_any; auto; lia|].
    apply Z.mod_divide; [lia|]. rewrite Zminus_mod, (Zpower_mod (mden _ _)), (Zpower_mod x), <- Zminus_mod by lia.
    assert (mden (map Some env) e mod m = x mod m) as ->; [|rewrite Z.sub_diag; apply Zmod_0_l].
    destruct Dx as [p Hp]. replace (mden (map Some env) e) with (x + p * m) by lia. apply Z_mod_plus_full.
Qed.

Lemma product_any m c l : 2 <= m < 2 ^ 32 -> mul_any m (mc_mul c) -> Forall (fun x => 0 <= x < 2 ^ 32) l ->
  mi_product c l = Ok (foldr Z.mul 1 l mod m).
Proof.
  intros Hm Hc Hl. unfold mi_product.
  assert (H : forall acc, 0 <= acc < m -> rfor l (fun x acc => mc_mul c acc x) acc = Ok ((acc * foldr Z.mul 1 l) mod m)).
  { induction Hl as [|x l Hx Hl IH]; intros acc Hacc; cbn [rfor foldr].
    - rewrite Z.mul_1_r, Z.mod_small by lia. reflexivity.
    - rewrite Hc by lia. cbn [mbind res_bind]. rewrite IH by (apply Z.mod_pos_bound; lia). rewrite Zmult_mod_idemp_l. f_equal. f_equal. ring. }
  rewrite H by lia. rewrite Z.mul_1_l. reflexivity.
Qed.
Close Scope Z_scope.
