(** Step counts of the number theory. *)
From stdpp Require Import relations.
From Verif Require Import Prelude Eff EffSpec IntModel NumModel NumProof IMathModel IMathProof ModIntModel GraphWorkModel GraphWorkSpec GraphWorkProof NumWorkModel NumWorkSpec.
Open Scope Z_scope.

(** ** Exact counts *)
Lemma takes_ret {A} (a : A) : takes (eret a) (Ok a) 0.
Proof. intros w. unfold eret. cbn. rewrite Nat.add_0_r. reflexivity. Qed.
Lemma takes_lift {A} (r : res A) : takes (elift r) r 0.
Proof. intros w. unfold elift. destruct r; cbn; [rewrite Nat.add_0_r|..]; reflexivity. Qed.
Lemma takes_tick {A} (f : eff nat A) r k : takes f r k -> takes (tick ;;* f) r (S k).
Proof. intros H w. unfold ebind, tick. cbn. rewrite H. destruct r; cbn; [do 2 f_equal; lia|reflexivity..]. Qed.
Lemma takes_bind {A B} (m : eff nat A) r (f : A -> eff nat B) g k1 k2 :
  takes m r k1 -> (forall a, r = Ok a -> takes (f a) (g a) k2) -> takes (ebind m f) (r ≫= g) (k1 + k2).
Proof.
  intros H1 H2 w. unfold ebind. rewrite H1. destruct r as [a| |]; cbn [mbind res_bind]; [|reflexivity..].
  rewrite (H2 a eq_refl). destruct (g a); cbn; [do 2 f_equal; lia|reflexivity..].
Qed.
Lemma takes_lift_bind {A B} r (f : A -> eff nat B) g k : (forall a, r = Ok a -> takes (f a) (g a) k) -> takes (ebind (elift r) f) (r ≫= g) k.
Proof. intros H. apply (takes_bind _ _ _ _ 0 k); [apply takes_lift|exact H]. Qed.
Lemma takes_eq {A} (m : eff nat A) r k k' : takes m r k -> k = k' -> takes m r k'.
Proof. intros H <-. exact H. Qed.
Lemma takes_panic {A} (m : eff nat A) k : takes m Panic k -> forall k', takes m Panic k'.
Proof. intros H k' w. apply H. Qed.
Lemma takes_costs {A} (m : eff nat A) r k : takes m r k -> costs k (fun _ => 0%nat) m r.
Proof. intros H w. rewrite H. destruct r as [a| |]; [|reflexivity..]. exists (w + k)%nat, k. split; [reflexivity|]. split; [apply one_nsteps|lia]. Qed.

(** ** Euclid's algorithm makes k divisions *)
Inductive euc : nat -> Z -> Z -> Prop :=
| euc_0 a : euc 0 a 0
| euc_S k a b : b <> 0 -> euc k b (Z.rem a b) -> euc (S k) a b.

Lemma fib_SS n : fib (S (S n)) = fib (S n) + fib n.
Proof. reflexivity. Qed.
Lemma fib_nonneg n : 0 <= fib n /\ 0 <= fib (S n).
Proof. induction n as [|n [IH1 IH2]]; [cbn; lia|]. rewrite fib_SS. lia. Qed.
Lemma fib_mono n : fib n <= fib (S n).
Proof. destruct n as [|n]; [cbn; lia|]. rewrite fib_SS. pose proof (fib_nonneg n). lia. Qed.
Lemma fib_le n m : (n <= m)%nat -> fib n <= fib m.
Proof. induction 1 as [|m _ IH]; [lia|]. pose proof (fib_mono m). lia. Qed.
Lemma fib_pos n : 1 <= fib (S n).
Proof. transitivity (fib 1); [cbn; lia|]. apply fib_le. lia. Qed.

Lemma lame k a b : euc k a b -> (1 <= k)%nat -> Z.abs b < Z.abs a -> fib (S k) <= Z.abs b /\ fib (S (S k)) <= Z.abs a.
Proof.
  induction 1 as [a|k a b Hb H IH]; [lia|]. intros _ Hlt.
  destruct (rem_facts a b Hb) as (_ & Hr & E & _).
  assert (Z.abs b + Z.abs (Z.rem a b) <= Z.abs a) as Hs.
  { destruct (decide (Z.quot a b = 0)) as [Hq|Hq]; [rewrite Hq in E; lia|]. nia. }
  destruct k as [|k].
  - inversion H; subst. split; [cbn; lia|]. change (fib 3) with 2. lia.
  - destruct (IH ltac:(lia) Hr) as [I1 I2]. split; [exact I2|]. rewrite fib_SS. lia.
Qed.
Lemma lame_any k a b : euc k a b -> (2 <= k)%nat -> fib k <= Z.min (Z.abs a) (Z.abs b) /\ fib (S k) <= Z.max (Z.abs a) (Z.abs b).
Proof.
  intros H Hk. destruct (Z.lt_trichotomy (Z.abs b) (Z.abs a)) as [Hlt|[He|Hgt]].
  - destruct (lame k a b H ltac:(lia) Hlt) as [I1 I2]. pose proof (fib_mono k). pose proof (fib_mono (S k)). lia.
  - exfalso. inversion H as [|k' a' b' Hb H']; subst; [lia|]. assert (Z.rem a b = 0) as E0.
    { apply Z.abs_0_iff. rewrite <- Z.rem_abs by exact Hb. rewrite He. apply Z.rem_same. lia. }
    rewrite E0 in H'. inversion H'; subst; [lia|contradiction].
  - inversion H as [|k' a' b' Hb H']; subst; [lia|]. assert (Z.rem a b = a) as E0.
    { apply Z.rem_small_iff; lia. }
    rewrite E0 in H'. destruct (lame _ _ _ H' ltac:(lia) ltac:(lia)) as [I1 I2]. lia.
Qed.

Lemma fib_lt k : fib (S (S k)) < fib (S (S (S k))).
Proof. rewrite (fib_SS (S k)). pose proof (fib_pos k). lia. Qed.
Lemma fib_rem k : Z.rem (fib (S (S (S (S k))))) (fib (S (S (S k)))) = fib (S (S k)).
Proof.
  rewrite (fib_SS (S (S k))). pose proof (fib_pos (S k)). pose proof (fib_lt k).
  rewrite Z.rem_mod_nonneg by lia. replace (fib (S (S (S k))) + fib (S (S k))) with (fib (S (S k)) + 1 * fib (S (S (S k)))) by lia.
  rewrite Z.mod_add by lia. apply Z.mod_small. lia.
Qed.
Lemma euc_fib k : euc (S k) (fib (S (S (S k)))) (fib (S (S k))).
Proof.
  induction k as [|k IH]; [apply euc_S; [discriminate|]; constructor|].
  pose proof (fib_pos (S (S k))). apply euc_S; [lia|]. rewrite fib_rem. exact IH.
Qed.
Lemma euc_fib_swap k : euc (S k) (fib (S k)) (fib (S (S k))).
Proof.
  destruct k as [|k]; [apply euc_S; [discriminate|]; constructor|]. pose proof (fib_pos (S k)). pose proof (fib_lt k).
  apply euc_S; [lia|]. rewrite Z.rem_small by lia. apply euc_fib.
Qed.
Lemma euc_unique k a b : euc k a b -> forall k', euc k' a b -> k' = k.
Proof. induction 1 as [a|k a b Hb H IH]; intros k' H'; inversion H'; subst; [reflexivity|contradiction|contradiction|f_equal; apply IH; assumption]. Qed.

Lemma fib_gcd k : Z.gcd (fib k) (fib (S k)) = 1.
Proof. induction k as [|k IH]; [reflexivity|]. rewrite fib_SS, Z.add_comm, Z.gcd_add_diag_r, Z.gcd_comm. exact IH. Qed.

Section Euclid.
  Context (T : ity) (HT : 2 <= it_bits T).

  Lemma eu_euc m : forall a b, eu T m a b -> exists k, euc k a b /\ (k <= m)%nat.
  Proof.
    induction m as [m IH] using lt_wf_ind. intros a b He. destruct (decide (b = 0)) as [->|Hb]; [exists 0%nat; split; [constructor|lia]|].
    destruct (eu_step T HT m a b He Hb) as (_ & m' & Hm & He'). destruct (IH m' Hm _ _ He') as (k & Hk & Hle).
    exists (S k). split; [apply euc_S; assumption|lia].
  Qed.

  Lemma irem_val a b r : b <> 0 -> irem T a b = Ok r -> r = Z.rem a b.
  Proof. intros Hb E. unfold irem in E. rewrite (proj2 (Z.eqb_neq b 0) Hb) in E. destruct (chk T (Z.quot a b)); cbn in E; congruence. Qed.
  Lemma gcd_step_next a b o : b <> 0 -> gcd_step T (a, b) = Ok o -> o = inl (b, Z.rem a b).
  Proof.
    intros Hb. unfold gcd_step. rewrite (proj2 (Z.eqb_neq b 0) Hb). intros (r & E & E2)%rbind_ok_inv. apply irem_val in E as ->; [|exact Hb]. congruence.
  Qed.
  Lemma gcd_step_takes a b : b <> 0 -> takes (gcd_stepW T (a, b)) (gcd_step T (a, b)) 1.
  Proof. intros Hb. unfold gcd_step, gcd_stepW. rewrite (proj2 (Z.eqb_neq b 0) Hb). apply takes_tick, takes_lift_bind. intros r _. apply takes_ret. Qed.
  Lemma gcd_takes k a b : euc k a b -> forall fuel, (k < fuel)%nat -> takes (eloop fuel (gcd_stepW T) (a, b)) (rloop fuel (gcd_step T) (a, b)) k.
  Proof.
    induction 1 as [a|k a b Hb H IH]; intros fuel Hf; (destruct fuel as [|fuel]; [lia|]); cbn [eloop rloop].
    - apply takes_ret.
    - apply (takes_bind _ _ _ _ 1 k); [apply gcd_step_takes, Hb|]. intros o E. apply gcd_step_next in E as ->; [|exact Hb]. cbv iota. apply IH. lia.
  Qed.
  Lemma ex_gcd_takes k a b : euc k a b -> forall fuel, (k < fuel)%nat -> takes (ex_gcd_recW T fuel a b) (ex_gcd_rec T fuel a b) (S k).
  Proof.
    induction 1 as [a|k a b Hb H IH]; intros fuel Hf; (destruct fuel as [|fuel]; [lia|]); cbn [ex_gcd_recW ex_gcd_rec].
    - apply takes_tick, takes_ret.
    - apply takes_tick. rewrite (proj2 (Z.eqb_neq b 0) Hb). apply takes_lift_bind. intros r E.
      apply irem_val in E as ->; [|exact Hb].
      eapply takes_eq; [apply takes_bind with (k2 := 0%nat); [apply IH; lia|]|lia]. intros [[x y] g] _.
      apply takes_lift_bind. intros q _. apply takes_lift_bind. intros p _. apply takes_lift_bind. intros z _. apply takes_ret.
  Qed.

  Lemma euc_exists a b : in_ty T a -> in_ty T b -> exists k, euc k a b /\ (k < euclid_fuel T)%nat.
  Proof.
    intros Ha Hb. pose proof (M_ge T HT) as HM.
    assert (forall x y, {bad T x y} + {~ bad T x y}) as D by (intros x y; unfold bad; repeat apply and_dec; apply decide; apply _).
    assert (forall x, euc 1 x (-1)) as E1.
    { intros x. apply euc_S; [lia|]. replace (Z.rem x (-1)) with 0 by (change (-1) with (- (1)); rewrite Z.rem_opp_r, Z.rem_1_r by lia; reflexivity). constructor. }
    destruct (D a b) as [(Hs & -> & ->)|N1]; [exists 1%nat; split; [apply E1|unfold euclid_fuel; lia]|].
    destruct (D b a) as [(Hs & -> & ->)|N2].
    - exists 2%nat. split; [|unfold euclid_fuel; lia]. unfold it_min. rewrite Hs. apply euc_S; [lia|].
      replace (Z.rem (-1) (- 2 ^ (it_bits T - 1))) with (-1); [apply E1|]. symmetry. apply Z.rem_small_iff; lia.
    - destruct (eu_euc _ a b (eu_start T HT a b Ha Hb N1 N2)) as (k & Hk & Hle). exists k. split; [exact Hk|]. unfold euclid_fuel. lia.
  Qed.

  (** Divisions of gcd and lcm, calls of ex_gcd *)
  Lemma euclid_takes a b : in_ty T a -> in_ty T b ->
    exists k, euc k a b /\ takes (gcdW T a b) (gcd T a b) k /\ takes (lcmW T a b) (lcm T a b) k /\ takes (ex_gcdW T a b) (ex_gcd T a b) (S k).
  Proof.
    intros Ha Hb. destruct (euc_exists a b Ha Hb) as (k & Hk & Hf). exists k. split; [exact Hk|].
    assert (takes (gcdW T a b) (gcd T a b) k) as Hg by (apply gcd_takes; assumption).
    split; [exact Hg|]. split; [|apply ex_gcd_takes; assumption].
    unfold lcmW, lcm. apply takes_lift_bind. intros p _. eapply takes_eq; [apply takes_bind with (k2 := 0%nat); [exact Hg|]|lia]. intros g _. apply takes_lift.
  Qed.
End Euclid.


(** Fibonacci numbers computed in pairs *)
Fixpoint fibp (n : nat) (p : Z * Z) : Z * Z := match n with O => p | S n => let '(a, b) := p in fibp n (b, a + b) end.
Lemma fibp_eq n : forall k, fibp n (fib k, fib (S k)) = (fib (n + k), fib (S (n + k))).
Proof. induction n as [|n IH]; intros k; [reflexivity|]. cbn [fibp]. rewrite (Z.add_comm (fib k)), <- fib_SS, IH. replace (n + S k)%nat with (S n + k)%nat by lia. reflexivity. Qed.
Lemma fib_fast n : fib n = (fibp n (0, 1)).1.
Proof. change (0, 1) with (fib 0, fib 1). rewrite fibp_eq, Nat.add_0_r. reflexivity. Qed.

Lemma most_bound T : In T prim_types -> (if it_signed T then 2 ^ (it_bits T - 1) else 2 ^ it_bits T - 1) < fib (S (S (euclid_most T))) /\ fib (S (euclid_most T)) <= it_max T.
Proof. cbn [In prim_types]. intros H. rewrite !fib_fast. repeat destruct H as [<-|H]; try (vm_compute; split; congruence). contradiction. Qed.

Lemma most_pos T : (1 <= euclid_most T)%nat.
Proof. unfold euclid_most. repeat case_match; lia. Qed.

Lemma euc_most T k a b : In T prim_types -> in_ty T a -> in_ty T b -> euc k a b -> (k <= euclid_most T)%nat.
Proof.
  intros HT Ha Hb H. destruct (most_bound T HT) as [HM _]. destruct (decide (k <= euclid_most T)%nat) as [|N]; [assumption|]. exfalso.
  pose proof (most_pos T). destruct (lame_any k a b H ltac:(lia)) as [_ L]. assert (fib (S (S (euclid_most T))) <= fib (S k)) by (apply fib_le; lia).
  unfold in_ty, it_min, it_max in *. destruct (it_signed T); lia.
Qed.

(** ** inv_gcd *)
Lemma inv_step_next s t m0 m1 o : t <> 0 -> inv_gcd_step (s, t, m0, m1) = Ok o -> exists x, o = inl (t, Z.rem s t, m1, x).
Proof.
  intros Ht. unfold inv_gcd_step. rewrite (proj2 (Z.eqb_neq t 0) Ht). intros (u & E1 & E)%rbind_ok_inv. apply rbind_ok_inv in E as (p & E2 & E).
  apply rbind_ok_inv in E as (s' & E3 & E). apply rbind_ok_inv in E as (q & _ & E). apply rbind_ok_inv in E as (x & _ & E).
  unfold idiv in E1. rewrite (proj2 (Z.eqb_neq t 0) Ht) in E1. apply chk_inv in E1 as [-> _]. apply chk_inv in E2 as [-> _]. apply chk_inv in E3 as [-> _].
  exists x. rewrite Z.rem_eq by exact Ht. congruence.
Qed.
Lemma inv_step_takes s t m0 m1 : t <> 0 -> takes (inv_gcd_stepW (s, t, m0, m1)) (inv_gcd_step (s, t, m0, m1)) 1.
Proof.
  intros Ht. unfold inv_gcd_stepW, inv_gcd_step. rewrite (proj2 (Z.eqb_neq t 0) Ht). apply takes_tick.
  do 5 (apply takes_lift_bind; intros ? _). apply takes_ret.
Qed.
Lemma inv_loop_takes k s t : euc k s t -> forall fuel m0 m1, (k < fuel)%nat -> takes (eloop fuel inv_gcd_stepW (s, t, m0, m1)) (rloop fuel inv_gcd_step (s, t, m0, m1)) k.
Proof.
  induction 1 as [s|k s t Ht H IH]; intros fuel m0 m1 Hf; (destruct fuel as [|fuel]; [lia|]); cbn [eloop rloop].
  - apply takes_ret.
  - apply (takes_bind _ _ _ _ 1 k); [apply inv_step_takes, Ht|]. intros o E. apply inv_step_next in E as [x ->]; [|exact Ht]. cbv iota. apply IH. lia.
Qed.
Lemma inv_gcd_takes a b : in_ty i64 a -> in_ty i64 b -> 1 <= b -> exists k, euc k b (a mod b) /\ takes (inv_gcdW a b) (inv_gcd a b) k.
Proof.
  intros Ha Hb Hb1. pose proof (Z.mod_pos_bound a b ltac:(lia)) as B. assert (in_ty i64 (a mod b)) as Hr by (rewrite i64_range in *; lia).
  destruct (euc_exists i64 ltac:(cbn; lia) b (a mod b) Hb Hr) as (k & Hk & Hf). exists k. split; [exact Hk|].
  unfold inv_gcdW, inv_gcd. rewrite safe_mod_ok by assumption. apply takes_lift_bind. intros ? [= <-].
  destruct (Z.eqb_spec (a mod b) 0) as [E|E].
  - rewrite E in Hk. inversion Hk; subst; [apply takes_ret|contradiction].
  - eapply takes_eq; [apply takes_bind with (k2 := 0%nat); [apply inv_loop_takes; [exact Hk|change (euclid_fuel i64) with 132%nat in Hf; lia]|]|lia].
    intros [s m0] _. destruct (m0 <? 0); [|apply takes_ret]. do 2 (apply takes_lift_bind; intros ? _). apply takes_ret.
Qed.

(** ** Powers *)
Lemma bitlen_pos n : 0 < n -> bitlen n = Z.to_nat (Z.log2 n + 1).
Proof. intros H. unfold bitlen. destruct (Z.eqb_spec n 0); [lia|reflexivity]. Qed.
Lemma bitlen_half n : 0 < n -> bitlen n = S (bitlen (n / 2)).
Proof.
  intros H. rewrite bitlen_pos by exact H. unfold bitlen. change 2 with (2 ^ 1) at 1 2. rewrite <- Z.shiftr_div_pow2 by lia. destruct (Z.eqb_spec (Z.shiftr n 1) 0) as [E|E].
  - rewrite Z.shiftr_div_pow2 in E by lia. change (2 ^ 1) with 2 in E. assert (n = 1) as -> by (apply Z.div_small_iff in E; lia). reflexivity.
  - rewrite Z.log2_shiftr by exact H. rewrite Z.shiftr_div_pow2 in E by lia. change (2 ^ 1) with 2 in E.
    assert (2 <= n) as H2 by (destruct (decide (n = 1)) as [->|]; [contradiction|lia]). assert (1 <= Z.log2 n) by (change 1 with (Z.log2 2); apply Z.log2_le_mono; exact H2). lia.
Qed.
Lemma filter_seq_S (P : nat -> Prop) `{!forall x, Decision (P x)} k n : length (filter P (seq (S k) n)) = length (filter (fun i => P (S i)) (seq k n)).
Proof. revert k. induction n as [|n IH]; intros k; [reflexivity|]. cbn [seq]. rewrite !filter_cons. destruct (decide (P (S k))); cbn [length]; rewrite IH; reflexivity. Qed.
Lemma ones_half n : 0 < n -> ones n = ((if Z.odd n then 1 else 0) + ones (n / 2))%nat.
Proof.
  intros H. unfold ones. rewrite bitlen_half by exact H. cbn [seq]. rewrite filter_cons. 
  assert (length (filter (fun i : nat => Z.testbit n (Z.of_nat i) = true) (seq 1 (bitlen (n / 2)))) = length (filter (fun i : nat => Z.testbit (n / 2) (Z.of_nat i) = true) (seq 0 (bitlen (n / 2))))) as E.
  { rewrite filter_seq_S. f_equal. apply list_filter_iff. intros i. change 2 with (2 ^ 1). rewrite <- Z.shiftr_div_pow2, Z.shiftr_spec by lia. replace (Z.of_nat i + 1) with (Z.of_nat (S i)) by lia. reflexivity. }
  cbn [Z.of_nat]. rewrite Z.bit0_odd. destruct (decide (Z.odd n = true)) as [Ho|Ho]; cbn [length]; rewrite E; destruct (Z.odd n); try reflexivity; congruence.
Qed.
Lemma bitlen_le n k : 0 <= n < 2 ^ Z.of_nat k -> (bitlen n <= k)%nat.
Proof.
  intros H. unfold bitlen. destruct (Z.eqb_spec n 0); [lia|]. assert (Z.log2 n < Z.of_nat k) by (apply Z.log2_lt_pow2; lia). pose proof (Z.log2_nonneg n). lia.
Qed.
Lemma ones_le n : (ones n <= bitlen n)%nat.
Proof. unfold ones. etransitivity; [apply filter_length|]. rewrite seq_length. reflexivity. Qed.
Lemma half_lt n : 0 < n -> 0 <= n / 2 < n.
Proof. intros H. split; [apply Z.div_pos; lia|apply Z.div_lt; lia]. Qed.

Lemma pow_loop_takes m : forall fuel n r y, 0 <= n -> (bitlen n < fuel)%nat ->
  takes (eloop fuel (pow_mod_stepW m) (n, r, y)) (rloop fuel (pow_mod_step m) (n, r, y)) (bitlen n + ones n).
Proof.
  induction fuel as [|fuel IH]; intros n r y Hn Hf; [lia|]. cbn [eloop rloop]. destruct (decide (n = 0)) as [->|Hn0]; [apply takes_ret|].
  rewrite bitlen_half, ones_half by lia.
  apply (takes_eq _ _ ((S (if Z.odd n then 1 else 0)) + (bitlen (n / 2) + ones (n / 2)))); [|lia]. apply takes_bind.
  - unfold pow_mod_stepW, pow_mod_step. rewrite (proj2 (Z.eqb_neq n 0) Hn0). rewrite land1, Zmod_odd.
    destruct (Z.odd n); cbn [Z.ltb Z.compare].
    + apply (takes_bind _ _ _ _ 1 1); [apply takes_tick, takes_lift|]. intros r' _. apply takes_tick. do 2 (apply takes_lift_bind; intros ? _). apply takes_ret.
    + apply (takes_bind _ _ _ _ 0 1); [apply takes_ret|]. intros r' _. apply takes_tick. do 2 (apply takes_lift_bind; intros ? _). apply takes_ret.
  - intros o E. assert (exists r' y', o = inl (n / 2, r', y')) as (r' & y' & ->).
    { unfold pow_mod_step in E. rewrite (proj2 (Z.eqb_neq n 0) Hn0) in E. apply rbind_ok_inv in E as (r' & _ & E). apply rbind_ok_inv in E as (p & _ & E). apply rbind_ok_inv in E as (y' & _ & [= <-]).
      rewrite Z.shiftr_div_pow2 by lia. eauto. }
    cbv iota. rewrite bitlen_half in Hf by lia. apply IH; [apply half_lt; lia|lia].
Qed.
Lemma pow_mod_takes x n m : 0 <= n -> in_ty i64 n -> takes (pow_modW x n m) (pow_mod x n m) (if m =? 1 then 0 else bitlen n + ones n).
Proof.
  intros Hn Hi. unfold pow_modW, pow_mod. destruct (m =? 1); [apply takes_ret|]. apply takes_lift_bind. intros y _.
  eapply takes_eq; [apply takes_bind with (k2 := 0%nat); [apply pow_loop_takes; [exact Hn|]|]|lia].
  - rewrite i64_range in Hi. pose proof (bitlen_le n 63). change (2 ^ Z.of_nat 63) with (2 ^ 63) in *. lia.
  - intros r _. apply takes_ret.
Qed.
Lemma mi_pow_loop_takes mul : forall fuel n x r, 0 <= n -> (bitlen n < fuel)%nat ->
  takes (eloop fuel (mi_pow_stepW mul) (n, x, r)) (rloop fuel (mi_pow_step mul) (n, x, r)) (bitlen n + ones n).
Proof.
  induction fuel as [|fuel IH]; intros n x r Hn Hf; [lia|]. cbn [eloop rloop]. destruct (decide (n = 0)) as [->|Hn0]; [apply takes_ret|].
  rewrite bitlen_half, ones_half by lia.
  apply (takes_eq _ _ ((S (if Z.odd n then 1 else 0)) + (bitlen (n / 2) + ones (n / 2)))); [|lia]. apply takes_bind.
  - unfold mi_pow_stepW, mi_pow_step. rewrite (proj2 (Z.ltb_lt 0 n) ltac:(lia)). rewrite land1, Zmod_odd.
    destruct (Z.odd n); cbn [Z.eqb].
    + apply (takes_bind _ _ _ _ 1 1); [apply takes_tick, takes_lift|]. intros r' _. apply takes_tick. apply takes_lift_bind; intros ? _. apply takes_ret.
    + apply (takes_bind _ _ _ _ 0 1); [apply takes_ret|]. intros r' _. apply takes_tick. apply takes_lift_bind; intros ? _. apply takes_ret.
  - intros o E. assert (exists x' r', o = inl (n / 2, x', r')) as (x' & r' & ->).
    { unfold mi_pow_step in E. rewrite (proj2 (Z.ltb_lt 0 n) ltac:(lia)) in E. apply rbind_ok_inv in E as (r' & _ & E). apply rbind_ok_inv in E as (x' & _ & [= <-]).
      rewrite Z.shiftr_div_pow2 by lia. eauto. }
    cbv iota. rewrite bitlen_half in Hf by lia. apply IH; [apply half_lt; lia|lia].
Qed.
Lemma mi_pow_takes mul x n : in_ty u64 n -> takes (mi_powW mul x n) (mi_pow mul x n) (bitlen n + ones n).
Proof.
  intros Hi. rewrite u64_range in Hi. apply mi_pow_loop_takes; [lia|]. pose proof (bitlen_le n 64). change (2 ^ Z.of_nat 64) with (2 ^ 64) in *. lia.
Qed.
Close Scope Z_scope.
