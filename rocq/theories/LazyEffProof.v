(** Cost of the calls of LazyEffModel.v: they do what LazyChkModel.v does and call the caller's functions O(log n) times. *)
From stdpp Require Import relations.
From Verif Require Import Prelude Eff UtilModel UtilProof ArraySpec LazySpec SegtreeModel SegtreeProof SegtreeChkModel LazyModel LazyChkModel SegtreeEffModel LazyEffModel FenwickSpec EffSpec SegtreeEffProof.

Section Lazy.
  Context {W S F : Type} (R : relation W) (e : S) (opE : S -> S -> eff W S) (opc : S -> S -> res S) (idm : F).
  Context (mappingE : F -> S -> eff W S) (mappingc : F -> S -> res S) (compE : F -> F -> eff W F) (compc : F -> F -> res F).
  Context (A : forall a b, spends R 1 (fun _ => 0) (opE a b) (opc a b)).
  Context (AM : forall f x, spends R 1 (fun _ => 0) (mappingE f x) (mappingc f x)).
  Context (AC : forall f g, spends R 1 (fun _ => 0) (compE f g) (compc f g)).
  Notation spends := (spends R).

  Local Ltac lift := apply spends_lift_bind; intros ? ?.
  Local Ltac call c := apply (spends_call_bind R _ c); [first [apply A|apply AM|apply AC]|lia|intros ? ?].

  Lemma lupdate_spends (s : tree S F) k : spends 1 (fun _ => 0) (lte_update opE s k) (ltc_update opc s k).
  Proof. destruct s as [d lz]. unfold lte_update, ltc_update. lift. lift. call 0. lift. apply spends_ret. lia. Qed.
  Lemma all_apply_spends size s k f : spends 2 (fun _ => 0) (lte_all_apply mappingE compE size s k f) (ltc_all_apply mappingc compc size s k f).
  Proof.
    destruct s as [d lz]. unfold lte_all_apply, ltc_all_apply. lift. call 1. lift. destruct (k <? size); [|apply spends_ret; lia].
    lift. call 0. lift. apply spends_ret. lia.
  Qed.
  Lemma push_spends size s k : spends 4 (fun _ => 0) (lte_push idm mappingE compE size s k) (ltc_push idm mappingc compc size s k).
  Proof.
    unfold lte_push, ltc_push. lift. apply (spends_part_bind R 2 _ 2); [apply all_apply_spends|lia|intros s1 _]. lift.
    apply (spends_part_bind R 2 _ 0); [apply all_apply_spends|lia|intros s2 _]. lift. apply spends_ret. lia.
  Qed.
  Lemma push_path_spends size log s p : spends (4 * log) (fun _ => 0) (lte_push_path idm mappingE compE size log s p) (ltc_push_path idm mappingc compc size log s p).
  Proof.
    unfold lte_push_path, ltc_push_path. apply (spends_for R _ 4). { intros i s0 _. apply push_spends. }
    unfold range_incl. rewrite rev_length, seq_length. lia.
  Qed.
  Lemma update_path_spends log (s : tree S F) p : spends log (fun _ => 0) (lte_update_path opE log s p) (ltc_update_path opc log s p).
  Proof. unfold lte_update_path, ltc_update_path. apply (spends_for R _ 1). { intros i s0 _. apply lupdate_spends. } unfold range_incl. rewrite seq_length. lia. Qed.

  Lemma lfrom_spends v : spends (2 * length v - 2) (fun _ => 0) (lte_from e opE idm v) (ltc_from e opc idm v).
  Proof.
    unfold lte_from, ltc_from. cbn zeta. apply spends_lift_bind. intros l El. apply spends_lift_bind. intros d Ed. apply copy_into_fits in Ed. rewrite replicate_length in Ed.
    pose proof (ceil_lg_nat (length v) l El ltac:(lia)) as HL. apply (spends_part_bind R (2 * length v - 2) _ 0); [|lia|intros; apply spends_ret; lia].
    apply (spends_for R _ 1). { intros i d' _. apply lupdate_spends. } unfold range. rewrite rev_length, seq_length, HL. pose proof (pow_log2_up (length v)). lia.
  Qed.

  Lemma lset_spends t p x : spends (5 * lt_log t) (fun _ => 0) (lte_set opE idm mappingE compE t p x) (ltc_set opc idm mappingc compc t p x).
  Proof.
    unfold lte_set, ltc_set. apply spends_assert. intros _. cbn zeta. apply (spends_part_bind R (4 * lt_log t) _ (lt_log t)); [apply push_path_spends|lia|intros s _]. lift.
    apply (spends_part_bind R (lt_log t) _ 0); [apply update_path_spends|lia|intros s' _]. apply spends_ret. lia.
  Qed.
  Lemma lget_spends t p : spends (4 * lt_log t) (fun _ => 0) (lte_get idm mappingE compE t p) (ltc_get idm mappingc compc t p).
  Proof.
    unfold lte_get, ltc_get. apply spends_assert. intros _. cbn zeta. apply (spends_part_bind R (4 * lt_log t) _ 0); [apply push_path_spends|lia|intros s _]. lift.
    apply spends_ret. lia.
  Qed.
  Lemma lapply_spends t p f : spends (5 * lt_log t + 1) (fun _ => 0) (lte_apply opE idm mappingE compE t p f) (ltc_apply opc idm mappingc compc t p f).
  Proof.
    unfold lte_apply, ltc_apply. apply spends_assert. intros _. cbn zeta. apply (spends_part_bind R (4 * lt_log t) _ (lt_log t + 1)); [apply push_path_spends|lia|intros s _]. lift.
    call (lt_log t). lift. apply (spends_part_bind R (lt_log t) _ 0); [apply update_path_spends|lia|intros s' _]. apply spends_ret. lia.
  Qed.

  Lemma lprod_spends L t l r : lt_log t = L -> lt_size t = 2 ^ L -> lt_n t <= lt_size t ->
    spends (10 * L + 3) (fun _ => 0) (lte_prod e opE idm mappingE compE t l r) (ltc_prod e opc idm mappingc compc t l r).
  Proof.
    intros Hl Hs Hn. unfold lte_prod, ltc_prod. apply spends_assert. intros B. apply andb_true_iff in B as [B1 B2]. apply Nat.leb_le in B1, B2.
    destruct (l =? r); [apply spends_ret; lia|]. cbn zeta. pose proof (pow2_pos L).
    apply (spends_part_bind R (8 * L) _ (2 * L + 3)); [|lia|intros s _].
    { apply (spends_for R _ 8).
      - intros i s _. unfold lte_push_bounds, ltc_push_bounds. apply (spends_part_bind R 4 _ 4); [|lia|intros s1 _].
        + destruct (straddled _ _); [apply push_spends|apply spends_ret; lia].
        + destruct (straddled _ _); [apply push_spends|apply spends_ret; lia].
      - unfold range_incl. rewrite rev_length, seq_length. lia. }
    apply (spends_part_bind R (2 * L + 2) _ 1); [|lia|intros [sml smr] _].
    - eapply spends_weak; [apply (prod_loop_spends R opE opc A); lia| |auto]. assert (Nat.log2 (r + lt_size t) <= Nat.log2 (2 ^ Datatypes.S L)) as Hg by (apply Nat.log2_le_mono; rewrite Nat.pow_succ_r'; lia).
      rewrite Nat.log2_pow2 in Hg by lia. lia.
    - call 0. apply spends_ret. lia.
  Qed.

  Lemma apply_loop_spends size f fuel l r s : 1 <= l ->
    spends (4 * Nat.log2 r) (fun _ => 0) (eloop fuel (lte_apply_step mappingE compE size f) (l, r, s)) (rloop fuel (ltc_apply_step mappingc compc size f) (l, r, s)).
  Proof.
    intros Hl. apply (spends_loop R (fun s => 1 <= s.1.1) (fun s => 4 * Nat.log2 s.1.2)); [| |exact Hl].
    - clear -AM AC. intros [[l r] s] Hl. cbn [fst snd] in *. unfold lte_apply_step, ltc_apply_step. destruct (Nat.ltb_spec l r) as [Hlr|Hlr]; [|apply spends_ret; lia].
      pose proof (log2_half r ltac:(lia)) as Hh. apply (spends_part_bind R 2 _ (2 + 4 * Nat.log2 (r / 2))); [|lia|].
      + destruct (Nat.odd l); [|apply spends_ret; lia]. apply (spends_part_bind R 2 _ 0); [apply all_apply_spends|lia|intros s1 _]. apply spends_ret. lia.
      + intros [l' s'] _. apply (spends_bind R _ (fun q => 4 * Nat.log2 (fst q / 2))).
        * destruct (Nat.odd r) eqn:Ho; [|apply spends_ret; cbn [fst]; lia].
          apply spends_lift_bind. intros r' E. apply nsub_inv in E as [_ ->]. apply (spends_part_bind R 2 _ (4 * Nat.log2 (r / 2))); [apply all_apply_spends|lia|intros s1 _]. apply spends_ret. cbn [fst].
          replace ((r - 1) / 2) with (r / 2); [lia|]. apply Nat.odd_spec in Ho as [q ->]. replace (2 * q + 1 - 1) with (q * 2) by lia. rewrite Nat.div_mul by lia.
          replace (2 * q + 1) with (1 + q * 2) by lia. rewrite Nat.div_add by lia. reflexivity.
        * intros [r' y'] _. apply spends_ret. cbn [fst snd]. lia.
    - clear. intros [[l r] s] s' Hl. cbn [fst snd] in *. unfold ltc_apply_step. destruct (Nat.ltb_spec l r) as [Hlr|Hlr]; [|discriminate]. intros E.
      apply rbind_ok_inv in E as ([l' x'] & E1 & E). apply rbind_ok_inv in E as ([r' y'] & _ & E). injection E as <-. cbn [fst snd].
      assert (2 <= l') as H2; [|pose proof (Nat.div_le_mono 2 l' 2 ltac:(lia) H2) as H1; exact H1].
      destruct (Nat.odd l) eqn:Ho; [|injection E1 as <- <-].
      + apply rbind_ok_inv in E1 as (? & _ & E1). injection E1 as <- _. lia.
      + destruct (decide (l = 1)) as [->|]; [discriminate|lia].
  Qed.

  Lemma apply_range_spends L t l r f : lt_log t = L -> lt_size t = 2 ^ L -> lt_n t <= lt_size t ->
    spends (14 * L + 4) (fun _ => 0) (lte_apply_range opE idm mappingE compE t l r f) (ltc_apply_range opc idm mappingc compc t l r f).
  Proof.
    intros Hl Hs Hn. unfold lte_apply_range, ltc_apply_range. apply spends_assert. intros B. apply andb_true_iff in B as [B1 B2]. apply Nat.leb_le in B1, B2.
    destruct (l =? r); [apply spends_ret; lia|]. cbn zeta. pose proof (pow2_pos L).
    apply (spends_part_bind R (8 * L) _ (6 * L + 4)); [|lia|intros s _].
    { apply (spends_for R _ 8).
      - intros i s _. unfold lte_push_bounds', ltc_push_bounds'. apply (spends_part_bind R 4 _ 4); [|lia|intros s1 _].
        + destruct (straddled _ _); [apply push_spends|apply spends_ret; lia].
        + destruct (straddled _ _); [lift; apply push_spends|apply spends_ret; lia].
      - unfold range_incl. rewrite rev_length, seq_length. lia. }
    apply (spends_part_bind R (4 * L + 4) _ (2 * L)); [|lia|intros s1 _].
    - eapply spends_weak; [apply apply_loop_spends; lia| |auto]. assert (Nat.log2 (r + lt_size t) <= Nat.log2 (2 ^ Datatypes.S L)) as Hg by (apply Nat.log2_le_mono; rewrite Nat.pow_succ_r'; lia).
      rewrite Nat.log2_pow2 in Hg by lia. lia.
    - apply (spends_part_bind R (2 * L) _ 0); [|lia|intros; apply spends_ret; lia]. apply (spends_for R _ 2).
      + intros i s2 _. unfold lte_update_bounds, ltc_update_bounds. apply (spends_part_bind R 1 _ 1); [|lia|intros s3 _].
        * destruct (straddled _ _); [apply lupdate_spends|apply spends_ret; lia].
        * destruct (straddled _ _); [lift; apply lupdate_spends|apply spends_ret; lia].
      + unfold range_incl. rewrite seq_length. lia.
  Qed.

  Context (g : S -> bool) (gE : S -> eff W bool) (G : forall x, spends 1 (fun _ => 0) (gE x) (Ok (g x))).
  Local Ltac pred c := apply (spends_pred R g gE G _ c); [lia|].

  Lemma ldescend_right_spends L s l x : 1 <= l < 2 * 2 ^ L ->
    spends (6 * (L - Nat.log2 l)) (fun _ => 0) (lte_descend_right opE idm mappingE compE (2 ^ L) gE s l x) (ltc_descend_right opc idm mappingc compc (2 ^ L) g s l x).
  Proof.
    intros Hl. unfold lte_descend_right, ltc_descend_right. apply (spends_part_bind R (6 * (L - Nat.log2 l)) _ 0); [|lia|intros [s1 l1] _; lift; apply spends_ret; lia].
    apply (spends_loop R (fun s => 1 <= s.1.2 < 2 * 2 ^ L) (fun s => 6 * (L - Nat.log2 s.1.2)) (fun _ => 0)); [| |exact Hl].
    - clear -A AM AC G. intros [[s l] x] Hl. cbn [fst snd] in *. destruct (Nat.ltb_spec l (2 ^ L)) as [H|H]; [|apply spends_ret; lia]. cbn zeta.
      assert (Nat.log2 l < L) as HL by (apply Nat.log2_lt_pow2; lia). pose proof (Nat.log2_double l ltac:(lia)) as Hd. pose proof (Nat.log2_succ_double l ltac:(lia)) as Hd1.
      apply (spends_part_bind R 4 _ (2 + 6 * (L - Nat.log2 (2 * l)))); [apply push_spends|lia|intros s1 _].
      apply spends_lift_bind. intros y _. call (1 + 6 * (L - Nat.log2 (2 * l))). pred (6 * (L - Nat.log2 (2 * l))). destruct (g _); apply spends_ret; cbn [fst snd]; lia.
    - clear. intros [[s l] x] s' Hl. cbn [fst snd] in *. destruct (Nat.ltb_spec l (2 ^ L)) as [H|H]; [|discriminate]. cbn zeta. intros E.
      apply rbind_ok_inv in E as (s1 & _ & E). apply rbind_ok_inv in E as (y & _ & E). apply rbind_ok_inv in E as (z & _ & E). destruct (g z); injection E as <-; cbn [fst snd]; lia.
  Qed.

  Lemma lmax_right_spends L t l : lt_log t = L -> lt_size t = 2 ^ L -> lt_n t <= lt_size t ->
    spends (13 * L + 7) (fun _ => 0) (lte_max_right e opE idm mappingE compE t l gE) (ltc_max_right e opc idm mappingc compc t l g).
  Proof.
    intros Hl Hs Hn. unfold lte_max_right, ltc_max_right. apply spends_assert. intros B. apply Nat.leb_le in B. pred (13 * L + 6). apply spends_assert. intros _.
    destruct (Nat.eqb_spec l (lt_n t)) as [->|Hne]; [apply spends_ret; lia|]. pose proof (log2_tree L (l + lt_size t) ltac:(lia)) as Hlog. rewrite Hs in *. pose proof (pow2_pos L).
    cbn zeta. apply (spends_part_bind R (4 * L) _ (9 * L + 6)); [rewrite Hl; apply push_path_spends|lia|intros s0 _].
    apply (spends_part_bind R (9 * L + 6) _ 0); [|lia|intros [? ?] _; apply spends_ret; lia].
    set (pot := fun s : tree S F * nat * S => 3 * Nat.log2 s.1.2 + (if Nat.odd s.1.2 then 3 else 0) + 6 * L + 2).
    eapply (spends_weak R (pot (s0, l + 2 ^ L, e))); [|subst pot; cbn [fst snd]; rewrite Hlog; destruct (Nat.odd _); lia|intros a _; apply Nat.le_refl].
    apply (spends_loop R (fun s => 1 <= s.1.2 < 2 * 2 ^ L) pot (fun _ => 0)); [| |cbn [fst snd]; lia].
    - clear -A AM AC G pot. intros [[s p] x] Hp. cbn [fst snd] in *. unfold lte_max_right_step, ltc_max_right_step.
      apply spends_lift_bind. intros m E. destruct (strip_even_spec p ltac:(lia)) as (k & m' & E' & Ep & Hm). rewrite E' in E. injection E as ->.
      assert (0 < m) as Hm0 by (destruct m; [discriminate|lia]). pose proof (log2_mul_le m k Hm0) as Hk. rewrite <- Ep in Hk. pose proof (pow2_pos k) as Hpk.
      assert (m <= p) as Hmp by (rewrite Ep; nia).
      assert (3 + 3 * Nat.log2 m <= 3 * Nat.log2 p + (if Nat.odd p then 3 else 0)) as Hpot.
      { destruct k as [|k]; [|lia]. rewrite Nat.pow_0_r, Nat.mul_1_r in Ep. subst p. rewrite Hm. lia. }
      subst pot. cbn [fst snd]. lift. apply (spends_call_bind R _ (3 * Nat.log2 p + (if Nat.odd p then 3 else 0) + 6 * L + 1)); [apply A|lia|intros y Hy].
      pred (3 * Nat.log2 p + (if Nat.odd p then 3 else 0) + 6 * L). destruct (g y); cbn [negb].
      + call (3 * Nat.log2 m + 6 * L + 2). cbn zeta. destruct (Nat.eqb_spec (lowbit (m + 1)) (m + 1)) as [Hw|Hw]; apply spends_ret; [lia|]. cbn [fst snd].
        replace (m + 1) with (Datatypes.S m) by lia. rewrite Nat.odd_succ, <- Nat.negb_odd, Hm. cbn [negb].
        pose proof (Nat.log2_succ_le m) as H1. pose proof (Nat.log2_eq_succ_is_pow2 m) as H2. assert (Nat.log2 (Datatypes.S m) = Nat.log2 m); [|lia].
        destruct (decide (Nat.log2 (Datatypes.S m) = Datatypes.S (Nat.log2 m))) as [Eq|Ne]; [|pose proof (Nat.log2_le_mono m (Datatypes.S m)); lia].
        exfalso. destruct (H2 Eq) as [b Hb]. apply Hw. replace (m + 1) with (Datatypes.S m) by lia. rewrite Hb. apply lowbit_pow2.
      + apply (spends_part_bind R (6 * (L - Nat.log2 m)) _ 0); [apply ldescend_right_spends; lia|lia|]. intros q _. apply spends_ret. lia.
    - clear. intros [[s p] x] s' Hp. cbn [fst snd] in *. unfold ltc_max_right_step. intros E. apply rbind_ok_inv in E as (m & E1 & E).
      destruct (strip_even_spec p ltac:(lia)) as (k & m' & E' & Ep & Hm). rewrite E' in E1. injection E1 as ->.
      apply rbind_ok_inv in E as (y & _ & E). apply rbind_ok_inv in E as (z & _ & E). destruct (g z); cbn [negb] in E.
      + apply rbind_ok_inv in E as (u & _ & E). cbn zeta in E. destruct (Nat.eqb_spec (lowbit (m + 1)) (m + 1)) as [Hw|Hw]; [discriminate|]. injection E as <-. cbn [fst snd].
        pose proof (pow2_pos k) as Hpk. assert (m <= p) as Hmp by (rewrite Ep; nia). split; [lia|].
        destruct (decide (m + 1 = 2 * 2 ^ L)) as [E2|]; [|lia]. exfalso. apply Hw. rewrite E2. change (2 * 2 ^ L) with (2 ^ Datatypes.S L). apply lowbit_pow2.
      + apply rbind_ok_inv in E as (? & _ & E). discriminate.
  Qed.

  Lemma ldescend_left_spends L s l x : 1 <= l < 2 * 2 ^ L ->
    spends (6 * (L - Nat.log2 l)) (fun _ => 0) (lte_descend_left opE idm mappingE compE (2 ^ L) gE s l x) (ltc_descend_left opc idm mappingc compc (2 ^ L) g s l x).
  Proof.
    intros Hl. unfold lte_descend_left, ltc_descend_left. apply (spends_part_bind R (6 * (L - Nat.log2 l)) _ 0); [|lia|intros [s1 l1] _; lift; apply spends_ret; lia].
    apply (spends_loop R (fun s => 1 <= s.1.2 < 2 * 2 ^ L) (fun s => 6 * (L - Nat.log2 s.1.2)) (fun _ => 0)); [| |exact Hl].
    - clear -A AM AC G. intros [[s l] x] Hl. cbn [fst snd] in *. destruct (Nat.ltb_spec l (2 ^ L)) as [H|H]; [|apply spends_ret; lia]. cbn zeta.
      assert (Nat.log2 l < L) as HL by (apply Nat.log2_lt_pow2; lia). pose proof (Nat.log2_double l ltac:(lia)) as Hd. pose proof (Nat.log2_succ_double l ltac:(lia)) as Hd1.
      apply (spends_part_bind R 4 _ (2 + 6 * (L - Nat.log2 (2 * l)))); [apply push_spends|lia|intros s1 _].
      apply spends_lift_bind. intros y _. call (1 + 6 * (L - Nat.log2 (2 * l))). pred (6 * (L - Nat.log2 (2 * l))). destruct (g _); [|apply spends_ret; cbn [fst snd]; lia].
      apply spends_lift_bind. intros l' E. apply nsub_inv in E as [_ ->]. apply spends_ret. cbn [fst snd]. replace (2 * l + 1 - 1) with (2 * l) by lia. lia.
    - clear. intros [[s l] x] s' Hl. cbn [fst snd] in *. destruct (Nat.ltb_spec l (2 ^ L)) as [H|H]; [|discriminate]. cbn zeta. intros E.
      apply rbind_ok_inv in E as (s1 & _ & E). apply rbind_ok_inv in E as (y & _ & E). apply rbind_ok_inv in E as (z & _ & E). destruct (g z).
      + apply rbind_ok_inv in E as (l' & E1 & E). apply nsub_inv in E1 as [_ ->]. injection E as <-. cbn [fst snd]. lia.
      + injection E as <-; cbn [fst snd]; lia.
  Qed.

  Lemma lmin_left_spends L t r : lt_log t = L -> lt_size t = 2 ^ L -> lt_n t <= lt_size t ->
    spends (13 * L + 7) (fun _ => 0) (lte_min_left e opE idm mappingE compE t r gE) (ltc_min_left e opc idm mappingc compc t r g).
  Proof.
    intros Hl Hs Hn. unfold lte_min_left, ltc_min_left. apply spends_assert. intros B. apply Nat.leb_le in B. pred (13 * L + 6). apply spends_assert. intros _.
    destruct (Nat.eqb_spec r 0) as [->|Hne]; [apply spends_ret; lia|]. pose proof (log2_tree L (r + lt_size t - 1) ltac:(lia)) as Hlog. rewrite Hs in *. pose proof (pow2_pos L).
    cbn zeta. lift. apply (spends_part_bind R (4 * L) _ (9 * L + 6)); [rewrite Hl; apply push_path_spends|lia|intros s0 _].
    apply (spends_part_bind R (9 * L + 6) _ 0); [|lia|intros [? ?] _; apply spends_ret; lia].
    set (pot := fun s : tree S F * nat * S => 3 * Nat.log2 (s.1.2 - 1) + (if Nat.odd s.1.2 then 3 else 0) + 6 * L + 3).
    eapply (spends_weak R (pot (s0, r + 2 ^ L, e))); [|subst pot; cbn [fst snd]; rewrite Hlog; destruct (Nat.odd _); lia|intros ? _; apply Nat.le_refl].
    apply (spends_loop R (fun s => 2 <= s.1.2 <= 2 * 2 ^ L) pot (fun _ => 0)); [| |cbn [fst snd]; lia].
    - clear -A AM AC G pot. intros [[s p] x] Hp. cbn [fst snd] in *. unfold lte_min_left_step, ltc_min_left_step.
      apply spends_lift_bind. intros p' E. apply nsub_inv in E as [_ ->].
      apply spends_lift_bind. intros m E. destruct (strip_odd_spec (p - 1) ltac:(lia)) as (k & m' & E' & Ep & Hm0 & Hm). rewrite E' in E. injection E as ->.
      pose proof (pow2_pos k) as Hpk. assert (m <= p - 1) as Hmp by nia.
      assert (Nat.log2 m <= Nat.log2 (p - 1)) as Hlm by (apply Nat.log2_le_mono; lia).
      assert (m <> 1 -> 3 + 3 * Nat.log2 (m - 1) <= 3 * Nat.log2 (p - 1) + (if Nat.odd p then 3 else 0)) as Hpot.
      { intros N1. destruct Hm as [->|Hm]; [lia|]. destruct k as [|k].
        - rewrite Nat.pow_0_r, Nat.mul_1_r in Ep. replace p with (Datatypes.S m) by lia. rewrite Nat.odd_succ, Hm. pose proof (Nat.log2_le_mono (m - 1) (Datatypes.S m - 1)). lia.
        - rewrite Nat.pow_succ_r' in Ep. pose proof (pow2_pos k). pose proof (Nat.log2_double (m - 1) ltac:(lia)) as H2. pose proof (Nat.log2_le_mono (2 * (m - 1)) (p - 1) ltac:(nia)). lia. }
      subst pot. cbn [fst snd]. lift. apply (spends_call_bind R _ (3 * Nat.log2 (p - 1) + (if Nat.odd p then 3 else 0) + 6 * L + 2)); [apply A|lia|intros y Hy].
      pred (3 * Nat.log2 (p - 1) + (if Nat.odd p then 3 else 0) + 6 * L + 1). destruct (g y); cbn [negb].
      + apply (spends_call_bind R _ (3 * Nat.log2 (p - 1) + (if Nat.odd p then 3 else 0) + 6 * L)); [apply A|lia|intros z Hz].
        destruct (Nat.eqb_spec (lowbit m) m) as [Hw|Hw]; apply spends_ret; [lia|]. cbn [fst snd].
        destruct Hm as [->|Hm]; [exfalso; apply Hw; reflexivity|]. rewrite <- Nat.negb_even, Hm. cbn [negb]. assert (m <> 1) as N1 by (intros ->; discriminate). specialize (Hpot N1). lia.
      + apply (spends_part_bind R (6 * (L - Nat.log2 m)) _ 0); [apply ldescend_left_spends; lia|lia|]. intros q _. apply spends_ret. lia.
    - clear. intros [[s p] x] s' Hp. cbn [fst snd] in *. unfold ltc_min_left_step. intros E. apply rbind_ok_inv in E as (p' & E1 & E). apply nsub_inv in E1 as [_ ->].
      apply rbind_ok_inv in E as (m & E1 & E). destruct (strip_odd_spec (p - 1) ltac:(lia)) as (k & m' & E' & Ep & Hm0 & Hm). rewrite E' in E1. injection E1 as ->.
      apply rbind_ok_inv in E as (y & _ & E). apply rbind_ok_inv in E as (z & _ & E). destruct (g z); cbn [negb] in E.
      + apply rbind_ok_inv in E as (u & _ & E). destruct (Nat.eqb_spec (lowbit m) m) as [Hw|Hw]; [discriminate|]. injection E as <-. cbn [fst snd].
        pose proof (pow2_pos k) as Hpk. assert (m <= p - 1) as Hmp by nia. split; [|lia].
        destruct Hm as [->|Hm]; [exfalso; apply Hw; reflexivity|]. destruct m as [|[|m]]; [lia|discriminate|lia].
      + apply rbind_ok_inv in E as (? & _ & E). discriminate.
  Qed.
End Lazy.

Definition lshape {S F} (n : nat) (t : lazytree S F) : Prop := lt_n t = n /\ lt_log t = Nat.log2_up n /\ lt_size t = 2 ^ Nat.log2_up n /\ n <= lt_size t.
Lemma lfrom_shape {S F} (e : S) opc (idm : F) v t : ltc_from e opc idm v = Ok t -> lshape (length v) t.
Proof.
  unfold ltc_from. cbn zeta. intros E. apply rbind_ok_inv in E as (l & El & E). apply rbind_ok_inv in E as (d & Ed & E). apply rbind_ok_inv in E as (d' & _ & E). injection E as <-.
  apply copy_into_fits in Ed. rewrite replicate_length in Ed. pose proof (ceil_lg_nat (length v) l El ltac:(lia)) as HL. unfold lshape. cbn [lt_n lt_log lt_size]. rewrite <- HL. repeat split; lia.
Qed.
Lemma lstep_shape {S F} (e : S) opc (idm : F) mappingc compc n t o t' out : lshape n t -> ltc_step e opc idm mappingc compc t o = Ok (t', out) -> lshape n t'.
Proof.
  intros H. destruct o as [p x|p|l r| |p f|l r f|l g|r g]; cbn [ltc_step]; intros E; apply rbind_ok_inv in E as (u & E1 & E); try destruct u as [u1 u2]; injection E as <- _; try exact H;
    unfold ltc_set, ltc_get, ltc_prod, ltc_apply, ltc_apply_range, ltc_max_right, ltc_min_left in E1; cbn zeta in E1;
    repeat (first [apply rbind_ok_inv in E1 as (? & _ & E1) | case_match]); try (injection E1; intros; subst; exact H).
Qed.

Lemma lstep_spends {W S F} (R : relation W) (e : S) opE opc (idm : F) mappingE mappingc compE compc :
  (forall a b, spends R 1 (fun _ => 0) (opE a b) (opc a b)) -> (forall f x, spends R 1 (fun _ => 0) (mappingE f x) (mappingc f x)) ->
  (forall f g, spends R 1 (fun _ => 0) (compE f g) (compc f g)) -> forall n t o, lshape n t -> pred_ok R o ->
  spends R (lazy_calls n (plain o)) (fun _ => 0) (lte_step (W := W) e opE idm mappingE compE t o) (ltc_step e opc idm mappingc compc t (plain o)).
Proof.
  intros A AM AC n t o (Hn & Hl & Hs & Hsz) P. destruct o as [p x|p|l r| |p f|l r f|l g gE|r g gE]; cbn [plain lazy_calls lte_step ltc_step]; cbn zeta.
  - eapply (spends_part_bind R _ _ 0); [apply lset_spends; eassumption|lia|intros; apply spends_ret; lia].
  - eapply (spends_part_bind R _ _ 0); [apply lget_spends; eassumption|lia|intros [? ?] _; apply spends_ret; lia].
  - eapply (spends_part_bind R _ _ 0); [apply (lprod_spends R e opE opc idm mappingE mappingc compE compc A AM AC (Nat.log2_up n)); lia|lia|intros [? ?] _; apply spends_ret; lia].
  - apply spends_lift_bind. intros; apply spends_ret; lia.
  - eapply (spends_part_bind R _ _ 0); [apply lapply_spends; eassumption|lia|intros; apply spends_ret; lia].
  - eapply (spends_part_bind R _ _ 0); [apply (apply_range_spends R opE opc idm mappingE mappingc compE compc A AM AC (Nat.log2_up n)); lia|lia|intros; apply spends_ret; lia].
  - eapply (spends_part_bind R _ _ 0); [apply (lmax_right_spends R e opE opc idm mappingE mappingc compE compc A AM AC g gE (acts_spends R _ _ P) (Nat.log2_up n)); lia|lia|intros [? ?] _; apply spends_ret; lia].
  - eapply (spends_part_bind R _ _ 0); [apply (lmin_left_spends R e opE opc idm mappingE mappingc compE compc A AM AC g gE (acts_spends R _ _ P) (Nat.log2_up n)); lia|lia|intros [? ?] _; apply spends_ret; lia].
Qed.

Lemma lhistory_spends {W S F} (R : relation W) (e : S) opE opc (idm : F) mappingE mappingc compE compc :
  (forall a b, spends R 1 (fun _ => 0) (opE a b) (opc a b)) -> (forall f x, spends R 1 (fun _ => 0) (mappingE f x) (mappingc f x)) ->
  (forall f g, spends R 1 (fun _ => 0) (compE f g) (compc f g)) -> forall v ops, Forall (pred_ok R) ops ->
  spends R ((2 * length v - 2) + sum_list_with (lazy_calls (length v)) (plain <$> ops)) (fun _ => 0)
    (t <* lte_from e opE idm v ;* erun (lte_step (W := W) e opE idm mappingE compE) t ops)
    (t ← ltc_from e opc idm v; ArraySpec.run (ltc_step e opc idm mappingc compc) t (plain <$> ops)).
Proof.
  intros A AM AC v ops P. eapply spends_part_bind; [apply lfrom_spends, A|reflexivity|]. intros t Ht. apply lfrom_shape in Ht.
  apply (spends_run R (lshape (length v)) (pred_ok R)); [|intros s o s' out; apply lstep_shape|exact Ht|exact P]. intros s o Hs Ho. apply lstep_spends; assumption.
Qed.
