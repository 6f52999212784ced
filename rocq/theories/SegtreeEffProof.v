(** Cost of the calls of SegtreeEffModel.v: they do what SegtreeChkModel.v does and call the caller's functions O(log n) times. *)
From stdpp Require Import relations.
From Verif Require Import Prelude Eff UtilModel UtilProof ArraySpec LazySpec SegtreeModel SegtreeProof SegtreeChkModel SegtreeEffModel FenwickSpec EffSpec.

Lemma nsub_inv a b c : nsub a b = Ok c -> b <= a /\ c = a - b.
Proof. unfold nsub. destruct (Nat.leb_spec b a); [|discriminate]. intros [= <-]. auto. Qed.
Lemma log2_half l : 2 <= l -> Nat.log2 (l / 2) + 1 = Nat.log2 l.
Proof.
  intros H. assert (l = 2 * (l / 2) + l mod 2) as E by (apply Nat.div_mod; lia). pose proof (Nat.mod_upper_bound l 2 ltac:(lia)) as M.
  assert (0 < l / 2) by (apply Nat.div_str_pos; lia). assert (l mod 2 = 0 \/ l mod 2 = 1) as [Z|Z] by lia; rewrite Z in E.
  - rewrite E at 2. rewrite Nat.add_0_r, Nat.log2_double by lia. lia.
  - rewrite E at 2. rewrite Nat.log2_succ_double by lia. lia.
Qed.
Lemma log2_mul_le m k : 0 < m -> Nat.log2 m + k = Nat.log2 (m * 2 ^ k).
Proof. intros H. rewrite Nat.log2_mul_pow2 by lia. lia. Qed.
Lemma log2_tree L l : 2 ^ L <= l < 2 * 2 ^ L -> Nat.log2 l = L.
Proof. intros H. apply Nat.log2_unique; [lia|]. rewrite Nat.pow_succ_r'. lia. Qed.
Lemma ceil_lg_nat n l : ceil_lg (Z.of_nat n mod 2 ^ 32) = Ok l -> n <= 2 ^ Z.to_nat l -> Z.to_nat l = Nat.log2_up n.
Proof.
  intros E H. rewrite ceil_lg_spec in E by (apply Z.mod_pos_bound; lia). injection E as <-. destruct (Z.lt_ge_cases (Z.of_nat n) (2 ^ 32)) as [Hn|Hn].
  - rewrite Z.mod_small by lia. destruct (Nat.le_gt_cases n 1) as [L1|G1].
    + rewrite Z.log2_up_eqn0 by lia. rewrite Nat.log2_up_eqn0 by lia. reflexivity.
    + symmetry. rewrite Z.mod_small in H by lia. pose proof (Z.log2_up_spec (Z.of_nat n) ltac:(lia)) as U. pose proof (Z.log2_up_pos (Z.of_nat n) ltac:(lia)) as P.
      apply Nat.log2_up_unique; [lia|]. split; [|exact H]. apply Nat2Z.inj_lt. rewrite Nat2Z.inj_pow.
      replace (Z.of_nat (Nat.pred (Z.to_nat (Z.log2_up (Z.of_nat n))))) with (Z.pred (Z.log2_up (Z.of_nat n))) by lia. apply U.
  - exfalso. set (m := (Z.of_nat n mod 2 ^ 32)%Z) in *. pose proof (Z.mod_pos_bound (Z.of_nat n) (2 ^ 32) ltac:(lia)) as M. fold m in M.
    apply Nat2Z.inj_le in H. rewrite Nat2Z.inj_pow in H. rewrite Z2Nat.id in H by apply Z.log2_up_nonneg. change (Z.of_nat 2) with 2%Z in H.
    assert (Z.log2_up m <= 32)%Z as M32 by (rewrite <- (Z.log2_up_pow2 32) by lia; apply Z.log2_up_le_mono; lia).
    destruct (Z.eq_dec (Z.of_nat n) (2 ^ 32)) as [En|Nn].
    + subst m. rewrite En in H. rewrite Z.mod_same in H by lia. cbn in H. lia.
    + pose proof (Z.pow_le_mono_r 2 (Z.log2_up m) 32 ltac:(lia) M32). lia.
Qed.
Lemma copy_into_fits {S} (d : list S) off v d' : copy_into d off v = Ok d' -> off + length v <= length d.
Proof. unfold copy_into. repeat case_match; intros E; try discriminate; rewrite ?Nat.leb_le in *; lia. Qed.
Lemma pow_log2_up n : 2 ^ Nat.log2_up n - 1 <= 2 * n - 2.
Proof.
  destruct (Nat.le_gt_cases n 1) as [L1|G1]; [rewrite Nat.log2_up_eqn0 by lia; change (2 ^ 0) with 1; lia|].
  pose proof (Nat.log2_up_spec n G1) as [H _]. pose proof (Nat.log2_up_pos n G1) as P. replace (Nat.log2_up n) with (Datatypes.S (Nat.pred (Nat.log2_up n))) by lia.
  rewrite Nat.pow_succ_r'. cbn [Nat.pred]. lia.
Qed.

Section Segtree.
  Context {W S : Type} (R : relation W) (e : S) (opE : S -> S -> eff W S) (opc : S -> S -> res S).
  Context (A : forall a b, spends R 1 (fun _ => 0) (opE a b) (opc a b)).
  Notation spends := (spends R).

  Local Ltac lift := apply spends_lift_bind; intros ? ?.
  Local Ltac call c := apply (spends_call_bind R _ c); [apply A|lia|intros ? ?].

  Lemma update_spends d k : spends 1 (fun _ => 0) (ste_update opE d k) (stc_update opc d k).
  Proof. unfold ste_update, stc_update. lift. lift. call 0. apply spends_lift. lia. Qed.

  Lemma set_spends t p x : spends (sg_log t) (fun _ => 0) (ste_set opE t p x) (stc_set opc t p x).
  Proof.
    unfold ste_set, stc_set. apply spends_assert. intros _. cbn zeta. lift. apply (spends_part_bind R (sg_log t) _ 0); [|lia|].
    - apply (spends_for R _ 1). { intros i d _. apply update_spends. } unfold range_incl. rewrite seq_length. lia.
    - intros d' _. apply spends_ret. lia.
  Qed.

  Lemma prod_loop_spends d fuel l r x y : 1 <= l ->
    spends (2 * Nat.log2 r) (fun _ => 0) (eloop fuel (ste_prod_step opE d) (l, r, x, y)) (rloop fuel (stc_prod_step opc d) (l, r, x, y)).
  Proof.
    intros Hl. apply (spends_loop R (fun s => 1 <= s.1.1.1) (fun s => 2 * Nat.log2 s.1.1.2)); [| |exact Hl].
    - clear -A. intros [[[l r] x] y] Hl. cbn [fst snd] in *. unfold ste_prod_step, stc_prod_step. destruct (Nat.ltb_spec l r) as [Hlr|Hlr]; [|apply spends_ret; lia].
      pose proof (log2_half r ltac:(lia)) as Hh.
      apply (spends_part_bind R 1 _ (1 + 2 * Nat.log2 (r / 2))); [|lia|].
      + destruct (Nat.odd l); [|apply spends_ret; lia]. lift. call 0. apply spends_ret. lia.
      + intros [l' x'] _. apply (spends_bind R _ (fun q => 2 * Nat.log2 (fst q / 2))).
        * destruct (Nat.odd r) eqn:Ho; [|apply spends_ret; cbn [fst]; lia].
          apply spends_lift_bind. intros r' E. apply nsub_inv in E as [_ ->]. lift. call (2 * Nat.log2 (r / 2)). apply spends_ret. cbn [fst].
          replace ((r - 1) / 2) with (r / 2); [lia|]. apply Nat.odd_spec in Ho as [q ->]. replace (2 * q + 1 - 1) with (q * 2) by lia. rewrite Nat.div_mul by lia.
          replace (2 * q + 1) with (1 + q * 2) by lia. rewrite Nat.div_add by lia. reflexivity.
        * intros [r' y'] _. apply spends_ret. cbn [fst snd]. lia.
    - clear. intros [[[l r] x] y] s' Hl. cbn [fst snd] in *. unfold stc_prod_step. destruct (Nat.ltb_spec l r) as [Hlr|Hlr]; [|discriminate]. intros E.
      apply rbind_ok_inv in E as ([l' x'] & E1 & E). apply rbind_ok_inv in E as ([r' y'] & _ & E). injection E as <-. cbn [fst snd].
      assert (2 <= l') as H2; [|pose proof (Nat.div_le_mono 2 l' 2 ltac:(lia) H2) as H1; exact H1].
      destruct (Nat.odd l) eqn:Ho; [|injection E1 as <- <-].
      + apply rbind_ok_inv in E1 as (? & _ & E1). apply rbind_ok_inv in E1 as (? & _ & E1). injection E1 as <- _. lia.
      + destruct (decide (l = 1)) as [->|]; [discriminate|lia].
  Qed.

  Lemma prod_spends L t l r : sg_size t = 2 ^ L -> sg_n t <= sg_size t -> spends (2 * L + 3) (fun _ => 0) (ste_prod e opE t l r) (stc_prod e opc t l r).
  Proof.
    intros Hs Hn. unfold ste_prod, stc_prod. apply spends_assert. intros B. apply andb_true_iff in B as [B1 B2]. apply Nat.leb_le in B1, B2. cbn zeta.
    pose proof (pow2_pos L). apply (spends_part_bind R (2 * L + 2) _ 1); [|lia|].
    - eapply spends_weak; [apply prod_loop_spends; lia| |auto]. assert (Nat.log2 (r + sg_size t) <= Nat.log2 (2 ^ Datatypes.S L)) as Hl by (apply Nat.log2_le_mono; rewrite Nat.pow_succ_r'; lia).
      rewrite Nat.log2_pow2 in Hl by lia. lia.
    - intros [sml smr] _. apply A.
  Qed.

  Lemma from_spends v : spends (2 * length v - 2) (fun _ => 0) (ste_from e opE v) (stc_from e opc v).
  Proof.
    unfold ste_from, stc_from. cbn zeta. apply spends_lift_bind. intros l El. apply spends_lift_bind. intros d Ed. apply copy_into_fits in Ed. rewrite replicate_length in Ed.
    pose proof (ceil_lg_nat (length v) l El ltac:(lia)) as HL. apply (spends_part_bind R (2 * length v - 2) _ 0); [|lia|intros; apply spends_ret; lia].
    apply (spends_for R _ 1). { intros i d' _. apply update_spends. } unfold range. rewrite rev_length, seq_length, HL. pose proof (pow_log2_up (length v)). lia.
  Qed.

  Context (g : S -> bool) (gE : S -> eff W bool) (G : forall x, spends 1 (fun _ => 0) (gE x) (Ok (g x))).
  (** the predicate is called on x *)
  Lemma spends_pred {B} c c' (q : B -> nat) x (f : bool -> eff W B) r : 1 + c' <= c -> spends c' q (f (g x)) r -> spends c q (ebind (gE x) f) r.
  Proof. intros Hc H. change r with (Ok (g x) ≫= (fun _ : bool => r)). apply (spends_call_bind R c c'); [apply G|exact Hc|]. intros b [= <-]. exact H. Qed.
  Local Ltac pred c := apply (spends_pred _ c); [lia|].

  Lemma descend_right_spends L d l x : 1 <= l < 2 * 2 ^ L ->
    spends (2 * (L - Nat.log2 l)) (fun _ => 0) (ste_descend_right opE d (2 ^ L) gE l x) (stc_descend_right opc d (2 ^ L) g l x).
  Proof.
    intros Hl. unfold ste_descend_right, stc_descend_right. apply (spends_part_bind R (2 * (L - Nat.log2 l)) _ 0); [|lia|intros; apply spends_lift; lia].
    apply (spends_loop R (fun s => 1 <= s.1 < 2 * 2 ^ L) (fun s => 2 * (L - Nat.log2 s.1)) (fun _ => 0)); [| |exact Hl].
    - clear -A G. intros [l x] Hl. cbn [fst] in *. destruct (Nat.ltb_spec l (2 ^ L)) as [H|H]; [|apply spends_ret; lia]. cbn zeta.
      assert (Nat.log2 l < L) as HL by (apply Nat.log2_lt_pow2; lia). pose proof (Nat.log2_double l ltac:(lia)) as Hd. pose proof (Nat.log2_succ_double l ltac:(lia)) as Hd1.
      apply spends_lift_bind. intros y _. call (1 + 2 * (L - Nat.log2 (2 * l))). pred (2 * (L - Nat.log2 (2 * l))). destruct (g _); apply spends_ret; cbn [fst]; lia.
    - clear. intros [l x] s' Hl. cbn [fst] in *. destruct (Nat.ltb_spec l (2 ^ L)) as [H|H]; [|discriminate]. cbn zeta. intros E.
      apply rbind_ok_inv in E as (y & _ & E). apply rbind_ok_inv in E as (z & _ & E). destruct (g z); injection E as <-; cbn [fst]; lia.
  Qed.

  Lemma max_right_spends L t l : sg_size t = 2 ^ L -> sg_n t <= sg_size t -> spends (5 * L + 7) (fun _ => 0) (ste_max_right e opE t l gE) (stc_max_right e opc t l g).
  Proof.
    intros Hs Hn. unfold ste_max_right, stc_max_right. apply spends_assert. intros B. apply Nat.leb_le in B. pred (5 * L + 6). apply spends_assert. intros _.
    destruct (Nat.eqb_spec l (sg_n t)) as [->|Hne]; [apply spends_ret; lia|]. pose proof (log2_tree L (l + sg_size t) ltac:(lia)) as Hlog. rewrite Hs in *. pose proof (pow2_pos L).
    set (pot := fun s : nat * S => 3 * Nat.log2 s.1 + (if Nat.odd s.1 then 3 else 0) + 2 * L + 2).
    eapply (spends_weak R (pot (l + 2 ^ L, e))); [|subst pot; cbn [fst]; rewrite Hlog; destruct (Nat.odd _); lia|intros a _; apply Nat.le_refl].
    apply (spends_loop R (fun s => 1 <= s.1 < 2 * 2 ^ L) pot (fun _ => 0)); [| |cbn [fst]; lia].
    - clear -A G pot. intros [p x] Hp. cbn [fst] in *. unfold ste_max_right_step, stc_max_right_step.
      apply spends_lift_bind. intros m E. destruct (strip_even_spec p ltac:(lia)) as (k & m' & E' & Ep & Hm). rewrite E' in E. injection E as ->.
      assert (0 < m) as Hm0 by (destruct m; [discriminate|lia]). pose proof (log2_mul_le m k Hm0) as Hk. rewrite <- Ep in Hk. pose proof (pow2_pos k) as Hpk.
      assert (m <= p) as Hmp by (rewrite Ep; nia).
      assert (3 + 3 * Nat.log2 m <= 3 * Nat.log2 p + (if Nat.odd p then 3 else 0)) as Hpot.
      { destruct k as [|k]; [|lia]. rewrite Nat.pow_0_r, Nat.mul_1_r in Ep. subst p. rewrite Hm. lia. }
      subst pot. cbn [fst]. lift. apply (spends_call_bind R _ (3 * Nat.log2 p + (if Nat.odd p then 3 else 0) + 2 * L + 1)); [apply A|lia|intros y Hy].
      pred (3 * Nat.log2 p + (if Nat.odd p then 3 else 0) + 2 * L). destruct (g y); cbn [negb].
      + call (3 * Nat.log2 m + 2 * L + 2). cbn zeta. destruct (Nat.eqb_spec (lowbit (m + 1)) (m + 1)) as [Hw|Hw]; cbn [negb]; apply spends_ret; [lia|]. cbn [fst].
        replace (m + 1) with (Datatypes.S m) by lia. rewrite Nat.odd_succ, <- Nat.negb_odd, Hm. cbn [negb].
        pose proof (Nat.log2_succ_le m) as H1. pose proof (Nat.log2_eq_succ_is_pow2 m) as H2. assert (Nat.log2 (Datatypes.S m) = Nat.log2 m); [|lia].
        destruct (decide (Nat.log2 (Datatypes.S m) = Datatypes.S (Nat.log2 m))) as [Eq|Ne]; [|pose proof (Nat.log2_le_mono m (Datatypes.S m)); lia].
        exfalso. destruct (H2 Eq) as [b Hb]. apply Hw. replace (m + 1) with (Datatypes.S m) by lia. rewrite Hb. apply lowbit_pow2.
      + apply (spends_part_bind R (2 * (L - Nat.log2 m)) _ 0); [apply descend_right_spends; lia|lia|]. intros q _. apply spends_ret. lia.
    - clear -A G. intros [p x] s' Hp. cbn [fst] in *. unfold stc_max_right_step. intros E. apply rbind_ok_inv in E as (m & E1 & E).
      destruct (strip_even_spec p ltac:(lia)) as (k & m' & E' & Ep & Hm). rewrite E' in E1. injection E1 as ->.
      apply rbind_ok_inv in E as (y & _ & E). apply rbind_ok_inv in E as (z & _ & E). destruct (g z); cbn [negb] in E.
      + apply rbind_ok_inv in E as (u & _ & E). cbn zeta in E. destruct (Nat.eqb_spec (lowbit (m + 1)) (m + 1)) as [Hw|Hw]; cbn [negb] in E; [discriminate|]. injection E as <-. cbn [fst].
        pose proof (pow2_pos k) as Hpk. assert (m <= p) as Hmp by (rewrite Ep; nia). split; [lia|].
        destruct (decide (m + 1 = 2 * 2 ^ L)) as [E2|]; [|lia]. exfalso. apply Hw. rewrite E2. change (2 * 2 ^ L) with (2 ^ Datatypes.S L). apply lowbit_pow2.
      + apply rbind_ok_inv in E as (? & _ & E). discriminate.
  Qed.

  Lemma descend_left_spends L d l x : 1 <= l < 2 * 2 ^ L ->
    spends (2 * (L - Nat.log2 l)) (fun _ => 0) (ste_descend_left opE d (2 ^ L) gE l x) (stc_descend_left opc d (2 ^ L) g l x).
  Proof.
    intros Hl. unfold ste_descend_left, stc_descend_left. apply (spends_part_bind R (2 * (L - Nat.log2 l)) _ 0); [|lia|intros; apply spends_lift; lia].
    apply (spends_loop R (fun s => 1 <= s.1 < 2 * 2 ^ L) (fun s => 2 * (L - Nat.log2 s.1)) (fun _ => 0)); [| |exact Hl].
    - clear -A G. intros [l x] Hl. cbn [fst] in *. destruct (Nat.ltb_spec l (2 ^ L)) as [H|H]; [|apply spends_ret; lia]. cbn zeta.
      assert (Nat.log2 l < L) as HL by (apply Nat.log2_lt_pow2; lia). pose proof (Nat.log2_double l ltac:(lia)) as Hd. pose proof (Nat.log2_succ_double l ltac:(lia)) as Hd1.
      apply spends_lift_bind. intros y _. call (1 + 2 * (L - Nat.log2 (2 * l))). pred (2 * (L - Nat.log2 (2 * l))). destruct (g _); [|apply spends_ret; cbn [fst]; lia].
      apply spends_lift_bind. intros l' E. apply nsub_inv in E as [_ ->]. apply spends_ret. cbn [fst]. replace (2 * l + 1 - 1) with (2 * l) by lia. lia.
    - clear. intros [l x] s' Hl. cbn [fst] in *. destruct (Nat.ltb_spec l (2 ^ L)) as [H|H]; [|discriminate]. cbn zeta. intros E.
      apply rbind_ok_inv in E as (y & _ & E). apply rbind_ok_inv in E as (z & _ & E). destruct (g z).
      + apply rbind_ok_inv in E as (l' & E1 & E). apply nsub_inv in E1 as [_ ->]. injection E as <-. cbn [fst]. lia.
      + injection E as <-; cbn [fst]; lia.
  Qed.

  Lemma min_left_spends L t r : sg_size t = 2 ^ L -> sg_n t <= sg_size t -> spends (5 * L + 7) (fun _ => 0) (ste_min_left e opE t r gE) (stc_min_left e opc t r g).
  Proof.
    intros Hs Hn. unfold ste_min_left, stc_min_left. apply spends_assert. intros B. apply Nat.leb_le in B. pred (5 * L + 6). apply spends_assert. intros _.
    destruct (Nat.eqb_spec r 0) as [->|Hne]; [apply spends_ret; lia|]. pose proof (log2_tree L (r + sg_size t - 1) ltac:(lia)) as Hlog. rewrite Hs in *. pose proof (pow2_pos L).
    set (pot := fun s : nat * S => 3 * Nat.log2 (s.1 - 1) + (if Nat.odd s.1 then 3 else 0) + 2 * L + 3).
    eapply (spends_weak R (pot (r + 2 ^ L, e))); [|subst pot; cbn [fst]; rewrite Hlog; destruct (Nat.odd _); lia|intros a _; apply Nat.le_refl].
    apply (spends_loop R (fun s => 2 <= s.1 <= 2 * 2 ^ L) pot (fun _ => 0)); [| |cbn [fst]; lia].
    - clear -A G pot. intros [p x] Hp. cbn [fst] in *. unfold ste_min_left_step, stc_min_left_step.
      apply spends_lift_bind. intros p' E. apply nsub_inv in E as [_ ->].
      apply spends_lift_bind. intros m E. destruct (strip_odd_spec (p - 1) ltac:(lia)) as (k & m' & E' & Ep & Hm0 & Hm). rewrite E' in E. injection E as ->.
      pose proof (pow2_pos k) as Hpk. assert (m <= p - 1) as Hmp by nia.
      assert (Nat.log2 m <= Nat.log2 (p - 1)) as Hlm by (apply Nat.log2_le_mono; lia).
      assert (m <> 1 -> 3 + 3 * Nat.log2 (m - 1) <= 3 * Nat.log2 (p - 1) + (if Nat.odd p then 3 else 0)) as Hpot.
      { intros N1. destruct Hm as [->|Hm]; [lia|]. destruct k as [|k].
        - rewrite Nat.pow_0_r, Nat.mul_1_r in Ep. replace p with (Datatypes.S m) by lia. rewrite Nat.odd_succ, Hm. pose proof (Nat.log2_le_mono (m - 1) (Datatypes.S m - 1)). lia.
        - rewrite Nat.pow_succ_r' in Ep. pose proof (pow2_pos k). pose proof (Nat.log2_double (m - 1) ltac:(lia)) as H2. pose proof (Nat.log2_le_mono (2 * (m - 1)) (p - 1) ltac:(nia)). lia. }
      subst pot. cbn [fst]. lift. apply (spends_call_bind R _ (3 * Nat.log2 (p - 1) + (if Nat.odd p then 3 else 0) + 2 * L + 2)); [apply A|lia|intros y Hy].
      pred (3 * Nat.log2 (p - 1) + (if Nat.odd p then 3 else 0) + 2 * L + 1). destruct (g y); cbn [negb].
      + apply (spends_call_bind R _ (3 * Nat.log2 (p - 1) + (if Nat.odd p then 3 else 0) + 2 * L)); [apply A|lia|intros z Hz].
        destruct (Nat.eqb_spec (lowbit m) m) as [Hw|Hw]; cbn [negb]; apply spends_ret; [lia|]. cbn [fst].
        destruct Hm as [->|Hm]; [exfalso; apply Hw; reflexivity|]. rewrite <- Nat.negb_even, Hm. cbn [negb]. assert (m <> 1) as N1 by (intros ->; discriminate). specialize (Hpot N1). lia.
      + apply (spends_part_bind R (2 * (L - Nat.log2 m)) _ 0); [apply descend_left_spends; lia|lia|]. intros q _. apply spends_ret. lia.
    - clear -A G. intros [p x] s' Hp. cbn [fst] in *. unfold stc_min_left_step. intros E. apply rbind_ok_inv in E as (p' & E1 & E). apply nsub_inv in E1 as [_ ->].
      apply rbind_ok_inv in E as (m & E1 & E). destruct (strip_odd_spec (p - 1) ltac:(lia)) as (k & m' & E' & Ep & Hm0 & Hm). rewrite E' in E1. injection E1 as ->.
      apply rbind_ok_inv in E as (y & _ & E). apply rbind_ok_inv in E as (z & _ & E). destruct (g z); cbn [negb] in E.
      + apply rbind_ok_inv in E as (u & _ & E). destruct (Nat.eqb_spec (lowbit m) m) as [Hw|Hw]; cbn [negb] in E; [discriminate|]. injection E as <-. cbn [fst].
        pose proof (pow2_pos k) as Hpk. assert (m <= p - 1) as Hmp by nia. split; [|lia].
        destruct Hm as [->|Hm]; [exfalso; apply Hw; reflexivity|]. destruct m as [|[|m]]; [lia|discriminate|lia].
      + apply rbind_ok_inv in E as (? & _ & E). discriminate.
  Qed.
End Segtree.

(** What the calls rely on and keep *)
Definition shape {S} (n : nat) (t : segtree S) : Prop := sg_n t = n /\ sg_log t = Nat.log2_up n /\ sg_size t = 2 ^ Nat.log2_up n /\ n <= sg_size t.
Lemma from_shape {S} (e : S) opc v t : stc_from e opc v = Ok t -> shape (length v) t.
Proof.
  unfold stc_from. cbn zeta. intros E. apply rbind_ok_inv in E as (l & El & E). apply rbind_ok_inv in E as (d & Ed & E). apply rbind_ok_inv in E as (d' & _ & E). injection E as <-.
  apply copy_into_fits in Ed. rewrite replicate_length in Ed. pose proof (ceil_lg_nat (length v) l El ltac:(lia)) as HL. unfold shape. cbn [sg_n sg_log sg_size]. rewrite <- HL. repeat split; lia.
Qed.
Lemma call_shape {S} (e : S) opc n t o t' out : shape n t -> stc_call e opc t o = Ok (t', out) -> shape n t'.
Proof.
  intros H. destruct o as [p x|p|l r| |p []|l r []|l g|r g]; cbn [stc_call]; intros E; apply rbind_ok_inv in E as (u & E1 & E); injection E as <- _; try exact H.
  unfold stc_set in E1. apply rbind_ok_inv in E1 as (? & _ & E1). apply rbind_ok_inv in E1 as (? & _ & E1). apply rbind_ok_inv in E1 as (? & _ & E1). injection E1 as <-. exact H.
Qed.

Lemma acts_spends {W A B} (R : relation W) (f : A -> B) fE : acts R f fE -> forall a, spends R 1 (fun _ => 0) (fE a) (Ok (f a)).
Proof. intros H a w. destruct (H a w) as (w' & E & Hw). exists w', 1. repeat split; [exact E| |lia]. econstructor; [exact Hw|constructor]. Qed.
Lemma acts_res_spends {W A B} (R : relation W) (f : A -> res B) fE : acts_res R f fE -> forall a, spends R 1 (fun _ => 0) (fE a) (f a).
Proof.
  intros H a w. specialize (H a w). destruct (f a); [|exact H|exact H]. destruct H as (w' & E & Hw). exists w', 1. repeat split; [exact E| |lia]. econstructor; [exact Hw|constructor].
Qed.
Lemma spends_same {W A} (R : relation W) c (m : eff W A) r : spends R c (fun _ => 0) m r -> same_within R c m r.
Proof. intros H w. specialize (H w). destruct r; [|exact H|exact H]. destruct H as (w' & k & E & N & L). exists w', k. repeat split; auto. lia. Qed.
Lemma same_answers {W St Out} (R : relation W) c (m : eff W (St * list Out)) r (allowed : res (list Out) -> Prop) :
  same_within R c m r -> allowed (snd <$> r) -> r <> Diverge -> answers_within R c m allowed.
Proof.
  intros H HA HD w. specialize (H w). destruct r as [[s outs]| |]; [|rewrite H; exact HA|contradiction HD; reflexivity].
  destruct H as (w' & k & -> & N & L). split; [exact HA|eauto].
Qed.

Lemma step_spends {W S} (R : relation W) (e : S) opE opc : (forall a b, spends R 1 (fun _ => 0) (opE a b) (opc a b)) -> forall n t o, shape n t -> pred_ok R o ->
  spends R (segtree_calls n (plain o)) (fun _ => 0) (ste_step (W := W) e opE t o) (stc_call e opc t (plain o)).
Proof.
  intros A n t o (Hn & Hl & Hs & Hsz) P. destruct o as [p x|p|l r| |p []|l r []|l g gE|r g gE]; cbn [plain segtree_calls ste_step stc_call]; cbn zeta.
  - eapply (spends_part_bind R (sg_log t) _ 0); [apply set_spends, A|lia|intros; apply spends_ret; lia].
  - apply spends_lift_bind. intros; apply spends_ret; lia.
  - eapply (spends_part_bind R _ _ 0); [apply (prod_spends R e opE opc A (Nat.log2_up n)); lia|lia|intros; apply spends_ret; lia].
  - apply spends_lift_bind. intros; apply spends_ret; lia.
  - eapply (spends_part_bind R _ _ 0); [apply (max_right_spends R e opE opc A g gE (acts_spends R _ _ P) (Nat.log2_up n)); lia|lia|intros; apply spends_ret; lia].
  - eapply (spends_part_bind R _ _ 0); [apply (min_left_spends R e opE opc A g gE (acts_spends R _ _ P) (Nat.log2_up n)); lia|lia|intros; apply spends_ret; lia].
Qed.

Lemma history_spends {W S} (R : relation W) (e : S) opE opc : (forall a b, spends R 1 (fun _ => 0) (opE a b) (opc a b)) -> forall v ops, Forall (pred_ok R) ops ->
  spends R ((2 * length v - 2) + sum_list_with (segtree_calls (length v)) (plain <$> ops)) (fun _ => 0)
    (t <* ste_from e opE v ;* erun (ste_step (W := W) e opE) t ops) (t ← stc_from e opc v; ArraySpec.run (stc_call e opc) t (plain <$> ops)).
Proof.
  intros A v ops P. eapply spends_part_bind; [apply from_spends, A|reflexivity|]. intros t Ht. apply from_shape in Ht.
  apply (spends_run R (shape (length v)) (pred_ok R)); [|intros s o s' out; apply call_shape|exact Ht|exact P]. intros s o Hs Ho. apply step_spends; assumption.
Qed.
