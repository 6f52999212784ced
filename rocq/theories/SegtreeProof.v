From Verif Require Import Prelude UtilModel UtilProof ArraySpec SegtreeSpec SegtreeModel.

Lemma pow2_pos k : 0 < 2 ^ k.
Proof. assert (2 ^ k <> 0) by (apply Nat.pow_nonzero; lia). lia. Qed.

Lemma strip_even_spec l : 0 < l -> exists k m, strip_even l = Ok m /\ l = m * 2 ^ k /\ Nat.odd m = true.
Proof.
  intros Hl. unfold strip_even.
  destruct (rloop_inv_idx (fun m x => m = x /\ 0 < x /\ exists k, l = x * 2 ^ k)
     (fun m => exists k, l = m * 2 ^ k /\ Nat.odd m = true)
     (fun l => if Nat.even l then Ok (inl (l / 2)) else Ok (inr l)))
    with (fuel := l + 1) (m := l) (s := l) as (r & Hr & k & Hk & Ho).
  - intros m x (-> & Hx & k & Hk). destruct (Nat.even x) eqn:He.
    + eexists; split; [reflexivity|]. cbn.
      apply Nat.even_spec in He. destruct He as [y ->].
      replace (2 * y / 2) with y by (symmetry; rewrite Nat.mul_comm; apply Nat.div_mul; lia).
      exists y. split; [lia|]. split; [reflexivity|]. split; [lia|].
      exists (S k). rewrite Nat.pow_succ_r'. lia.
    + eexists; split; [reflexivity|]. cbn. exists k. split; [exact Hk|].
      rewrite <- Nat.negb_even, He. reflexivity.
  - split; [reflexivity|]. split; [exact Hl|]. exists 0. rewrite Nat.pow_0_r. lia.
  - lia.
  - exists k, r. auto.
Qed.

Lemma strip_odd_spec l : 0 < l -> exists k m, strip_odd l = Ok m /\ l + 1 = (m + 1) * 2 ^ k /\ 0 < m /\ (m = 1 \/ Nat.even m = true).
Proof.
  intros Hl. unfold strip_odd.
  destruct (rloop_inv_idx (fun m x => m = x /\ 0 < x /\ exists k, l + 1 = (x + 1) * 2 ^ k)
     (fun m => exists k, l + 1 = (m + 1) * 2 ^ k /\ 0 < m /\ (m = 1 \/ Nat.even m = true))
     (fun r => if (1 <? r) && Nat.odd r then Ok (inl (r / 2)) else Ok (inr r)))
    with (fuel := l + 1) (m := l) (s := l) as (r & Hr & k & Hk & Hp & Ho).
  - intros m x (-> & Hx & k & Hk).
    destruct (Nat.ltb_spec 1 x) as [H1|H1]; cbn [andb].
    + destruct (Nat.odd x) eqn:He.
      * eexists; split; [reflexivity|]. cbn.
        apply Nat.odd_spec in He. destruct He as [y ->].
        replace ((2 * y + 1) / 2) with y by (apply (Nat.div_unique _ _ _ 1); lia).
        exists y. split; [lia|]. split; [reflexivity|]. split; [lia|].
        exists (S k). rewrite Nat.pow_succ_r'. lia.
      * eexists; split; [reflexivity|]. cbn. exists k. split; [exact Hk|]. split; [lia|].
        right. rewrite <- Nat.negb_odd, He. reflexivity.
    + eexists; split; [reflexivity|]. cbn. exists k. split; [exact Hk|]. split; lia.
  - split; [reflexivity|]. split; [exact Hl|]. exists 0. rewrite Nat.pow_0_r. lia.
  - lia.
  - exists k, r. auto.
Qed.

Section Proof.
  Context {S : Type} (e : S) (op : S -> S -> S) (L : monoid_laws e op).
  Implicit Types (d a : list S).
  Local Notation P := (mprod e op).

  Definition node d k : Prop :=
    exists x y, d !! (2 * k) = Some x /\ d !! (2 * k + 1) = Some y /\ d !! k = Some (op x y).

  Record Inv (t : segtree S) a : Prop := {
    inv_n : sg_n t = length a;
    inv_size : sg_size t = 2 ^ sg_log t;
    inv_le : sg_n t <= sg_size t;
    inv_len : length (sg_d t) = 2 * sg_size t;
    inv_leaf : forall i, i < sg_n t -> sg_d t !! (sg_size t + i) = a !! i;
    inv_pad : forall i, sg_n t <= i < sg_size t -> sg_d t !! (sg_size t + i) = Some e;
    inv_node : forall k, 1 <= k < sg_size t -> node (sg_d t) k }.

  Lemma node_frame d d' k :
    node d k -> d' !! k = d !! k -> d' !! (2 * k) = d !! (2 * k) ->
    d' !! (2 * k + 1) = d !! (2 * k + 1) -> node d' k.
  Proof. intros (x & y & H1 & H2 & H3) E1 E2 E3. exists x, y. rewrite E1, E2, E3. auto. Qed.

  Lemma st_update_ok d k : 1 <= k -> 2 * k + 1 < length d ->
    exists d', st_update op d k = Ok d' /\ length d' = length d /\ node d' k /\
      (forall j, j <> k -> d' !! j = d !! j).
  Proof.
    intros Hk Hlen. unfold st_update.
    destruct (vget_lt d (2 * k)) as (x & -> & Hx); [lia|].
    destruct (vget_lt d (2 * k + 1)) as (y & -> & Hy); [lia|]. cbn [mbind res_bind].
    rewrite vset_ok by lia. eexists; split; [reflexivity|].
    split; [apply insert_length|]. split.
    - exists x, y. rewrite !list_lookup_insert_ne by lia.
      rewrite list_lookup_insert by lia. auto.
    - intros j Hj. apply list_lookup_insert_ne. congruence.
  Qed.

  Lemma copy_into_ok d off v : off + length v <= length d ->
    exists d', copy_into d off v = Ok d' /\ length d' = length d /\
      (forall i, i < length v -> d' !! (off + i) = v !! i) /\
      (forall j, j < off \/ off + length v <= j -> d' !! j = d !! j).
  Proof.
    intros H. unfold copy_into. destruct (Nat.leb_spec (off + length v) (length d)); [|lia].
    eexists; split; [reflexivity|].
    assert (length (take off d) = off) as Hto by (rewrite take_length; lia).
    split; [rewrite !app_length, drop_length, Hto; lia|]. split.
    - intros i Hi. rewrite lookup_app_r by lia. rewrite Hto.
      replace (off + i - off) with i by lia. apply lookup_app_l. lia.
    - intros j [Hj|Hj].
      + rewrite lookup_app_l by lia. apply lookup_take. lia.
      + rewrite lookup_app_r by lia. rewrite Hto, lookup_app_r by lia.
        rewrite lookup_drop. f_equal. lia.
  Qed.

  Lemma st_from_inv v : (Z.of_nat (length v) < 2 ^ 32)%Z ->
    exists t, st_from e op v = Ok t /\ Inv t v.
  Proof.
    intros Hlen. unfold st_from. rewrite Z.mod_small by lia.
    destruct (ceil_lg_pow (Z.of_nat (length v))) as (k & Hk & Hk32 & Hle); [lia|].
    rewrite Hk. cbn [mbind res_bind].
    set (log := Z.to_nat k). set (size := 2 ^ log).
    assert (length v <= size) as Hvs.
    { unfold size, log. apply Nat2Z.inj_le. rewrite Nat2Z.inj_pow, Z2Nat.id by lia. exact Hle. }
    assert (0 < size) as Hsz by apply pow2_pos.
    destruct (copy_into_ok (replicate (2 * size) e) size v) as (d & -> & Hd & Hleaf & Hout).
    { rewrite replicate_length. lia. }
    rewrite replicate_length in Hd. cbn [mbind res_bind].
    destruct (rfor_rev_range_inv
      (fun i d' => length d' = 2 * size /\ (forall j, size <= j -> d' !! j = d !! j) /\
                   (forall j, i <= j < size -> node d' j))
      1 size (fun i d => st_update op d i) d) as (d' & Hr & Hd' & Hhi & Hnode).
    - lia.
    - split; [exact Hd|]. split; [auto|]. intros j Hj. lia.
    - intros i s Hi (Hs & Hhi & Hn).
      destruct (st_update_ok s i) as (s' & Hu & Hls & Hns & Hfr); [lia|lia|].
      exists s'. split; [exact Hu|]. split; [lia|]. split.
      + intros j Hj. rewrite Hfr by lia. apply Hhi. exact Hj.
      + intros j Hj. destruct (decide (j = i)) as [->|Hne]; [exact Hns|].
        apply (node_frame s); [apply Hn; lia|apply Hfr; lia|apply Hfr; lia|apply Hfr; lia].
    - unfold range. rewrite Hr. cbn [mbind res_bind].
      eexists; split; [reflexivity|]. constructor; cbn [sg_n sg_size sg_log sg_d].
      + reflexivity.
      + reflexivity.
      + exact Hvs.
      + exact Hd'.
      + intros i Hi. rewrite Hhi by lia. apply Hleaf. exact Hi.
      + intros i Hi. rewrite Hhi by lia. rewrite Hout by lia.
        apply lookup_replicate_2. lia.
      + exact Hnode.
  Qed.

  (** Vectors of 2^32 or more elements are rejected by a panic (never a wrong tree). *)
  Lemma st_from_huge v : (2 ^ 32 <= Z.of_nat (length v))%Z -> st_from e op v = Panic.
  Proof.
    intros Hlen. unfold st_from.
    destruct (ceil_lg_pow (Z.of_nat (length v) mod 2 ^ 32)) as (k & Hk & Hk32 & Hle).
    { apply Z.mod_pos_bound. lia. }
    rewrite Hk. cbn [mbind res_bind].
    set (size := 2 ^ Z.to_nat k).
    assert (size < length v) as Hlt.
    { apply Nat2Z.inj_lt. unfold size. rewrite Nat2Z.inj_pow, Z2Nat.id by lia.
      change (Z.of_nat 2) with 2%Z.
      destruct (Z.eq_dec k 32) as [->|Hk']; [|apply Z.lt_le_trans with (2 ^ 32)%Z; [apply Z.pow_lt_mono_r; lia|lia]].
      destruct (Z.eq_dec (Z.of_nat (length v)) (2 ^ 32)) as [Heq|Hne]; [|lia].
      rewrite Heq, Z_mod_same_full in Hk. discriminate Hk. }
    unfold copy_into. rewrite replicate_length.
    destruct (Nat.leb_spec (size + length v) (2 * size)); [lia|]. reflexivity.
  Qed.

  (** ** Node values *)
  Section Reads.
    Context (t : segtree S) (a : list S) (I : Inv t a).
    Local Notation n := (sg_n t).
    Local Notation size := (sg_size t).
    Local Notation d := (sg_d t).

    Lemma size_pos : 0 < size.
    Proof. rewrite (inv_size _ _ I). apply pow2_pos. Qed.

    Lemma node_prod h : forall k, size <= k * 2 ^ h -> (k + 1) * 2 ^ h <= 2 * size ->
      d !! k = Some (P (slice d (k * 2 ^ h) ((k + 1) * 2 ^ h))).
    Proof.
      pose proof size_pos as Hsz.
      induction h as [|h IH]; intros k Hlo Hhi.
      - rewrite Nat.pow_0_r, !Nat.mul_1_r in *.
        destruct (lookup_lt_is_Some_2 d k) as [x Hx]; [rewrite (inv_len _ _ I); lia|].
        rewrite (slice_single d k x Hx), (mprod_single _ _ L). exact Hx.
      - rewrite Nat.pow_succ_r' in *. pose proof (pow2_pos h) as Hp.
        destruct (inv_node _ _ I k) as (x & y & H1 & H2 & H3); [nia|].
        rewrite IH in H1 by nia. rewrite IH in H2 by nia. rewrite H3. f_equal.
        injection H1 as <-. injection H2 as <-.
        rewrite <- (mprod_app _ _ L), slice_app by nia.
        f_equal. f_equal; nia.
    Qed.

    Lemma node_lookup k : k < 2 * size -> exists x, vget d k = Ok x /\ d !! k = Some x.
    Proof. intros Hk. apply vget_lt. rewrite (inv_len _ _ I). exact Hk. Qed.

    (** slices of the leaves are slices of the array (with identity padding) *)
    Lemma leaf_slice l r : l <= r <= n -> P (slice d (size + l) (size + r)) = P (slice a l r).
    Proof.
      intros H. f_equal. symmetry. apply slice_shift. intros i Hi. symmetry.
      apply (inv_leaf _ _ I). lia.
    Qed.

    Lemma pad_slice l r : n <= l -> r <= size -> P (slice d (size + l) (size + r)) = e.
    Proof.
      intros Hl Hr. destruct (decide (l <= r)) as [Hlr|Hlr].
      - transitivity (P (replicate (r - l) e)); [f_equal|apply (mprod_replicate_e _ _ L)].
        apply list_eq. intros i. destruct (decide (i < r - l)) as [Hi|Hi].
        + rewrite slice_lookup by lia. rewrite lookup_replicate_2 by lia.
          rewrite <- Nat.add_assoc. apply (inv_pad _ _ I). lia.
        + unfold slice. rewrite lookup_take_ge by lia.
          symmetry. apply lookup_ge_None_2. rewrite replicate_length. lia.
      - rewrite slice_nil by lia. reflexivity.
    Qed.

    Lemma leaf_slice_pad l r : l <= n -> n <= r <= size -> P (slice d (size + l) (size + r)) = P (slice a l n).
    Proof.
      intros Hl Hr. rewrite <- (slice_app d (size + l) (size + n) (size + r)) by lia.
      rewrite (mprod_app _ _ L), (pad_slice n r) by lia. rewrite (ml_idr _ _ L). apply leaf_slice. lia.
    Qed.

    Lemma all_prod_ok : st_all_prod t = Ok (P a).
    Proof.
      unfold st_all_prod. apply vget_ok.
      pose proof (inv_size _ _ I) as Hs.
      rewrite (node_prod (sg_log t)) by lia. f_equal.
      rewrite <- Hs. replace (1 * size) with (size + 0) by lia.
      replace ((1 + 1) * size) with (size + size) by lia.
      pose proof (inv_le _ _ I).
      rewrite leaf_slice_pad by lia. rewrite (inv_n _ _ I), slice_full. reflexivity.
    Qed.

    Lemma get_ok p : st_get t p = match a !! p with Some x => Ok x | None => Panic end.
    Proof.
      unfold st_get. destruct (Nat.ltb_spec p n) as [Hp|Hp]; cbn [rassert mbind res_bind].
      - unfold vget. rewrite Nat.add_comm, (inv_leaf _ _ I) by exact Hp. reflexivity.
      - rewrite lookup_ge_None_2; [reflexivity|]. rewrite <- (inv_n _ _ I). exact Hp.
    Qed.

    Lemma prod_ok l r : l <= r <= n -> st_prod e op t l r = Ok (P (slice a l r)).
    Proof.
      intros Hlr. unfold st_prod. pose proof size_pos as Hsz. pose proof (inv_le _ _ I) as Hns.
      destruct (Nat.leb_spec l r); [|lia]. destruct (Nat.leb_spec r n); [|lia].
      cbn [andb rassert mbind res_bind].
      destruct (rloop_inv_idx
        (fun m '(l', r', sml, smr) => m = r' /\ exists h,
            size <= l' * 2 ^ h /\ l' <= r' /\ r' * 2 ^ h <= 2 * size /\
            op (op sml (P (slice d (l' * 2 ^ h) (r' * 2 ^ h)))) smr = P (slice a l r))
        (fun '(sml, smr) => op sml smr = P (slice a l r))
        (st_prod_step op d)) with (fuel := r + size + 1) (m := r + size)
        (s := (l + size, r + size, e, e)) as ([sml smr] & Hr & Hq).
      - intros m [[[l' r'] sml] smr] (-> & h & H1 & H2 & H3 & H4).
        unfold st_prod_step. pose proof (pow2_pos h) as Hph.
        destruct (Nat.ltb_spec l' r') as [Hlt|Hge].
        2:{ eexists; split; [reflexivity|]. cbn. rewrite slice_nil in H4 by nia.
            cbn [mprod foldr] in H4. rewrite (ml_idr _ _ L) in H4. exact H4. }
        (* left step *)
        assert (exists l1 sml1,
          (if Nat.odd l' then x ← vget d l'; Ok (l' + 1, op sml x) else Ok (l', sml)) = Ok (l1, sml1) /\
          Nat.even l1 = true /\ l' <= l1 <= r' /\
          op (op sml1 (P (slice d (l1 * 2 ^ h) (r' * 2 ^ h)))) smr = P (slice a l r)) as (l1 & sml1 & -> & He1 & Hl1 & H5).
        { destruct (Nat.odd l') eqn:Ho.
          - pose proof (node_prod h l' H1) as Hn.
            assert ((l' + 1) * 2 ^ h <= 2 * size) as Hb by nia. specialize (Hn Hb).
            rewrite (vget_ok _ _ _ Hn). cbn [mbind res_bind].
            eexists _, _; split; [reflexivity|]. split.
            { rewrite Nat.add_1_r, Nat.even_succ. exact Ho. }
            split; [lia|].
            rewrite <- H4. f_equal. rewrite <- (ml_assoc _ _ L). f_equal.
            rewrite <- (mprod_app _ _ L). rewrite slice_app by nia. reflexivity.
          - eexists _, _; split; [reflexivity|]. split; [rewrite <- Nat.negb_odd, Ho; reflexivity|].
            split; [lia|]. exact H4. }
        cbn [mbind res_bind].
        assert (exists r1 smr1,
          (if Nat.odd r' then r ← nsub r' 1; x ← vget d r; Ok (r, op x smr) else Ok (r', smr)) = Ok (r1, smr1) /\
          Nat.even r1 = true /\ l1 <= r1 <= r' /\
          op (op sml1 (P (slice d (l1 * 2 ^ h) (r1 * 2 ^ h)))) smr1 = P (slice a l r)) as (r1 & smr1 & -> & He2 & Hr1 & H6).
        { destruct (Nat.odd r') eqn:Ho.
          - assert (l1 < r') as Hlr1.
            { destruct (decide (l1 = r')) as [->|]; [|lia].
              rewrite <- Nat.negb_odd, Ho in He1. discriminate. }
            rewrite nsub_ok by lia. cbn [mbind res_bind].
            pose proof (node_prod h (r' - 1)) as Hn.
            rewrite (vget_ok _ _ _ (Hn ltac:(nia) ltac:(nia))). cbn [mbind res_bind].
            eexists _, _; split; [reflexivity|]. split.
            { destruct r' as [|r'']; [lia|]. rewrite Nat.odd_succ in Ho.
              replace (Datatypes.S r'' - 1) with r'' by lia. exact Ho. }
            split; [lia|].
            rewrite <- H5. rewrite <- !(ml_assoc _ _ L). f_equal. rewrite !(ml_assoc _ _ L). f_equal.
            rewrite <- (mprod_app _ _ L). rewrite slice_app by nia. f_equal. f_equal. nia.
          - eexists _, _; split; [reflexivity|]. split; [rewrite <- Nat.negb_odd, Ho; reflexivity|].
            split; [lia|]. exact H5. }
        cbn [mbind res_bind]. eexists; split; [reflexivity|]. cbn.
        apply Nat.even_spec in He1, He2. destruct He1 as [l2 ->]. destruct He2 as [r2 ->].
        assert (2 * l2 / 2 = l2) as El by (rewrite Nat.mul_comm; apply Nat.div_mul; lia).
        assert (2 * r2 / 2 = r2) as Er by (rewrite Nat.mul_comm; apply Nat.div_mul; lia).
        exists r2.
        split; [lia|]. split; [symmetry; exact Er|]. exists (Datatypes.S h).
        rewrite El, Er, Nat.pow_succ_r'.
        split; [nia|]. split; [lia|]. split; [nia|].
        rewrite <- H6. f_equal. f_equal. f_equal. f_equal; nia.
      - split; [reflexivity|]. exists 0. rewrite Nat.pow_0_r, !Nat.mul_1_r.
        split; [lia|]. split; [lia|]. split; [lia|].
        rewrite (ml_idl _ _ L), (ml_idr _ _ L).
        replace (l + size) with (size + l) by lia. replace (r + size) with (size + r) by lia.
        apply leaf_slice. lia.
      - lia.
      - rewrite Hr. cbn [mbind res_bind]. rewrite Hq. reflexivity.
    Qed.

    (** ** max_right *)
    Lemma height_bound h l : 0 < l -> (l + 1) * 2 ^ h <= 2 * size -> h < size + 1.
    Proof.
      intros Hl H. assert (2 ^ h <= size) by nia.
      assert (h < 2 ^ h) by (apply Nat.pow_gt_lin_r; lia). lia.
    Qed.

    Lemma descend_right_ok f l h sm l0 :
      size <= l * 2 ^ h -> (l + 1) * 2 ^ h <= 2 * size -> l0 <= n -> size + l0 <= l * 2 ^ h ->
      sm = P (slice d (size + l0) (l * 2 ^ h)) -> f sm = true ->
      f (op sm (P (slice d (l * 2 ^ h) ((l + 1) * 2 ^ h)))) = false ->
      exists r, st_descend_right op d size f l sm = Ok r /\ max_right_post e op a l0 f r.
    Proof.
      intros Hlo Hhi Hl0 Hl0l Hsm Hft Hff. unfold st_descend_right. pose proof size_pos as Hsz.
      match goal with |- context [rloop _ ?st _] => set (step := st) end.
      destruct (rloop_inv_idx
        (fun h '(l, sm) => size <= l * 2 ^ h /\ (l + 1) * 2 ^ h <= 2 * size /\ size + l0 <= l * 2 ^ h /\
           sm = P (slice d (size + l0) (l * 2 ^ h)) /\ f sm = true /\
           f (op sm (P (slice d (l * 2 ^ h) ((l + 1) * 2 ^ h)))) = false)
        (fun l => size <= l < 2 * size /\ size + l0 <= l /\ f (P (slice d (size + l0) l)) = true /\
           f (P (slice d (size + l0) (l + 1))) = false)
        step) with (fuel := size + 1) (m := h) (s := (l, sm)) as (l' & Hr & H1 & H2 & H3 & H4).
      - clear l h sm Hlo Hhi Hl0l Hsm Hft Hff.
        intros h [l sm] (H1 & H2 & H3 & -> & H5 & H6). unfold step.
        pose proof (pow2_pos h) as Hph.
        destruct h as [|h].
        + rewrite Nat.pow_0_r, !Nat.mul_1_r in *.
          destruct (Nat.ltb_spec l size); [lia|]. eexists; split; [reflexivity|]. cbn.
          split; [lia|]. split; [exact H3|]. split; [exact H5|].
          rewrite <- (mprod_app _ _ L), slice_app in H6 by lia. exact H6.
        + pose proof (pow2_pos h) as Hph'. rewrite Nat.pow_succ_r' in *.
          destruct (Nat.ltb_spec l size); [|nia].
          pose proof (node_prod h (2 * l) ltac:(nia) ltac:(nia)) as Hn.
          rewrite (vget_ok _ _ _ Hn). cbn [mbind res_bind].
          replace (l * (2 * 2 ^ h)) with (2 * l * 2 ^ h) in * by nia.
          replace ((l + 1) * (2 * 2 ^ h)) with ((2 * l + 2) * 2 ^ h) in * by nia.
          rewrite <- (mprod_app _ _ L), slice_app by nia.
          rewrite <- (mprod_app _ _ L), slice_app in H6 by nia.
          destruct (f (P (slice d (size + l0) ((2 * l + 1) * 2 ^ h)))) eqn:Hf.
          * eexists; split; [reflexivity|]. cbn. exists h. split; [lia|].
            split; [nia|]. split; [nia|]. split; [nia|]. split; [reflexivity|].
            split; [exact Hf|]. rewrite <- (mprod_app _ _ L), slice_app by nia.
            rewrite <- H6. f_equal. f_equal. f_equal. nia.
          * eexists; split; [reflexivity|]. cbn. exists h. split; [lia|].
            split; [nia|]. split; [nia|]. split; [nia|]. split; [reflexivity|].
            split; [exact H5|]. rewrite <- (mprod_app _ _ L), slice_app by nia. exact Hf.
      - auto 10.
      - apply (height_bound h l); [|exact Hhi]. pose proof (pow2_pos h). nia.
      - rewrite Hr. cbn [mbind res_bind]. rewrite nsub_ok by lia.
        eexists; split; [reflexivity|].
        set (r := l' - size). replace l' with (size + r) in * by lia.
        assert (r < n) as Hrn.
        { destruct (decide (r < n)) as [|Hge]; [assumption|exfalso].
          rewrite <- (slice_app d _ (size + r)) in H4 by lia.
          rewrite (mprod_app _ _ L) in H4. rewrite <- Nat.add_assoc in H4.
          rewrite (pad_slice r (r + 1)) in H4 by lia.
          rewrite (ml_idr _ _ L) in H4. congruence. }
        split; [rewrite <- (inv_n _ _ I); lia|]. split.
        + rewrite leaf_slice in H3 by lia. exact H3.
        + intros _. rewrite <- Nat.add_assoc in H4. rewrite leaf_slice in H4 by lia. exact H4.
    Qed.

    Lemma max_right_ok l0 f : l0 <= n -> f e = true ->
      exists r, st_max_right e op t l0 f = Ok r /\ max_right_post e op a l0 f r.
    Proof.
      intros Hl0 Hfe. unfold st_max_right. pose proof size_pos as Hsz. pose proof (inv_le _ _ I) as Hns.
      pose proof (inv_size _ _ I) as Hsize.
      destruct (Nat.leb_spec l0 n); [|lia]. rewrite Hfe. cbn [rassert mbind res_bind].
      destruct (Nat.eqb_spec l0 n) as [->|Hne].
      { eexists; split; [reflexivity|]. rewrite (inv_n _ _ I) in *.
        split; [lia|]. split; [rewrite slice_nil by lia; exact Hfe|lia]. }
      apply (rloop_inv_idx
        (fun m '(l, sm) => exists h, m + l * 2 ^ h = 2 * size /\ 0 < m /\
            size + l0 <= l * 2 ^ h /\ sm = P (slice d (size + l0) (l * 2 ^ h)) /\ f sm = true)
        _ _) with (m := size - l0); [|exists 0; rewrite Nat.pow_0_r, Nat.mul_1_r|lia].
      2:{ split; [lia|]. split; [lia|]. split; [lia|].
          rewrite slice_nil by lia. split; [reflexivity|exact Hfe]. }
      intros m [l sm] (h & H1 & H2 & H3 & -> & H5). unfold st_max_right_step.
      assert (0 < l) as Hl by nia.
      destruct (strip_even_spec l Hl) as (k & l' & -> & Hll & Hodd). cbn [mbind res_bind].
      assert (l * 2 ^ h = l' * 2 ^ (k + h)) as E by (rewrite Nat.pow_add_r; nia).
      rewrite E in *. clear E. generalize dependent (k + h). clear k h l Hl Hll.
      intros h H1 H3 H5. pose proof (pow2_pos h) as Hph.
      assert (0 < l') as Hl' by nia.
      assert (exists q, 2 * size = q * 2 ^ h) as [q Hq].
      { assert (h < sg_log t + 1) as Hh.
        { apply (Nat.pow_lt_mono_r_iff 2); [lia|]. rewrite Nat.add_1_r, Nat.pow_succ_r', <- Hsize. nia. }
        exists (2 ^ (sg_log t + 1 - h)). rewrite <- Nat.pow_add_r.
        replace (sg_log t + 1 - h + h) with (Datatypes.S (sg_log t)) by lia.
        rewrite Nat.pow_succ_r', <- Hsize. reflexivity. }
      assert ((l' + 1) * 2 ^ h <= 2 * size) as Hhi.
      { assert (l' < q) by (apply (Nat.mul_lt_mono_pos_r (2 ^ h)); lia).
        rewrite Hq. apply Nat.mul_le_mono_r. lia. }
      pose proof (node_prod h l' ltac:(lia) Hhi) as Hn.
      rewrite (vget_ok _ _ _ Hn). cbn [mbind res_bind].
      destruct (f (op (P (slice d (size + l0) (l' * 2 ^ h)))
                   (P (slice d (l' * 2 ^ h) ((l' + 1) * 2 ^ h))))) eqn:Hf; cbn [negb].
      - rewrite <- (mprod_app _ _ L), slice_app in Hf |- * by nia.
        destruct (Nat.eqb_spec (lowbit (l' + 1)) (l' + 1)) as [Hp|Hnp]; cbn [negb].
        + eexists; split; [reflexivity|]. cbn.
          destruct (lowbit_eq_pow2 (l' + 1)) as [j Hj]; [lia|exact Hp|].
          assert (size < (l' + 1) * 2 ^ h) as Hgt by nia.
          assert ((l' + 1) * 2 ^ h = 2 * size) as E.
          { rewrite Hj in *. rewrite <- Nat.pow_add_r in *.
            assert (sg_log t < j + h) as G1.
            { apply (Nat.pow_lt_mono_r_iff 2); [lia|]. rewrite <- Hsize. exact Hgt. }
            assert (j + h <= Datatypes.S (sg_log t)) as G2.
            { apply (Nat.pow_le_mono_r_iff 2); [lia|]. rewrite Nat.pow_succ_r', <- Hsize. lia. }
            replace (j + h) with (Datatypes.S (sg_log t)) by lia.
            rewrite Nat.pow_succ_r', <- Hsize. reflexivity. }
          rewrite E in Hf. replace (2 * size) with (size + size) in Hf by lia.
          rewrite leaf_slice_pad in Hf by lia.
          split; [rewrite <- (inv_n _ _ I); lia|]. split; [exact Hf|].
          rewrite <- (inv_n _ _ I). lia.
        + eexists; split; [reflexivity|]. cbn.
          assert ((l' + 1) * 2 ^ h <> 2 * size) as Hne2.
          { intros E. apply Hnp.
            assert (h <= Datatypes.S (sg_log t)) as Hh.
            { apply (Nat.pow_le_mono_r_iff 2); [lia|]. rewrite Nat.pow_succ_r', <- Hsize. nia. }
            assert (l' + 1 = 2 ^ (Datatypes.S (sg_log t) - h)) as ->.
            { apply (Nat.mul_cancel_r _ _ (2 ^ h)); [lia|]. rewrite E, <- Nat.pow_add_r.
              replace (Datatypes.S (sg_log t) - h + h) with (Datatypes.S (sg_log t)) by lia.
              rewrite Nat.pow_succ_r', <- Hsize. reflexivity. }
            apply lowbit_pow2. }
          exists (2 * size - (l' + 1) * 2 ^ h). split; [nia|].
          exists h. split; [nia|]. split; [nia|]. split; [nia|]. split; [reflexivity|exact Hf].
      - destruct (descend_right_ok f l' h _ l0 ltac:(nia) Hhi ltac:(lia) ltac:(nia) eq_refl H5 Hf)
          as (r & -> & Hpost).
        cbn [mbind res_bind]. eexists; split; [reflexivity|]. exact Hpost.
    Qed.

    (** ** min_left *)
    Lemma descend_left_ok f r h sm r0 :
      size <= r * 2 ^ h -> (r + 1) * 2 ^ h <= size + r0 -> r0 <= n ->
      sm = P (slice d ((r + 1) * 2 ^ h) (size + r0)) -> f sm = true ->
      f (op (P (slice d (r * 2 ^ h) ((r + 1) * 2 ^ h))) sm) = false ->
      exists l, st_descend_left op d size f r sm = Ok l /\ min_left_post e op a r0 f l.
    Proof.
      intros Hlo Hhi Hr0 Hsm Hft Hff. unfold st_descend_left. pose proof size_pos as Hsz.
      pose proof (inv_le _ _ I) as Hns.
      match goal with |- context [rloop _ ?st _] => set (step := st) end.
      destruct (rloop_inv_idx
        (fun h '(r, sm) => size <= r * 2 ^ h /\ (r + 1) * 2 ^ h <= size + r0 /\
           sm = P (slice d ((r + 1) * 2 ^ h) (size + r0)) /\ f sm = true /\
           f (op (P (slice d (r * 2 ^ h) ((r + 1) * 2 ^ h))) sm) = false)
        (fun r => size <= r /\ r + 1 <= size + r0 /\ f (P (slice d (r + 1) (size + r0))) = true /\
           f (P (slice d r (size + r0))) = false)
        step) with (fuel := size + 1) (m := h) (s := (r, sm)) as (l' & Hr & H1 & H2 & H3 & H4).
      - clear r h sm Hlo Hhi Hsm Hft Hff.
        intros h [r sm] (H1 & H2 & -> & H5 & H6). unfold step.
        pose proof (pow2_pos h) as Hph.
        destruct h as [|h].
        + rewrite Nat.pow_0_r, !Nat.mul_1_r in *.
          destruct (Nat.ltb_spec r size); [lia|]. eexists; split; [reflexivity|]. cbn.
          split; [lia|]. split; [exact H2|]. split; [exact H5|].
          rewrite <- (mprod_app _ _ L), slice_app in H6 by lia. exact H6.
        + pose proof (pow2_pos h) as Hph'. rewrite Nat.pow_succ_r' in *.
          destruct (Nat.ltb_spec r size); [|nia].
          pose proof (node_prod h (2 * r + 1) ltac:(nia) ltac:(nia)) as Hn.
          rewrite (vget_ok _ _ _ Hn). cbn [mbind res_bind].
          replace (r * (2 * 2 ^ h)) with (2 * r * 2 ^ h) in * by nia.
          replace ((r + 1) * (2 * 2 ^ h)) with ((2 * r + 1 + 1) * 2 ^ h) in * by nia.
          rewrite <- (mprod_app _ _ L), slice_app by nia.
          rewrite <- (mprod_app _ _ L), slice_app in H6 by nia.
          destruct (f (P (slice d ((2 * r + 1) * 2 ^ h) (size + r0)))) eqn:Hf.
          * rewrite nsub_ok by lia. cbn [mbind res_bind].
            eexists; split; [reflexivity|]. cbn. exists h. split; [lia|].
            replace (2 * r + 1 - 1) with (2 * r) by lia.
            split; [nia|]. split; [nia|]. split; [reflexivity|].
            split; [exact Hf|]. rewrite <- (mprod_app _ _ L), slice_app by nia. exact H6.
          * eexists; split; [reflexivity|]. cbn. exists h. split; [lia|].
            split; [nia|]. split; [nia|]. split; [reflexivity|].
            split; [exact H5|]. rewrite <- (mprod_app _ _ L), slice_app by nia. exact Hf.
      - auto 10.
      - apply (height_bound h r); [pose proof (pow2_pos h); nia|lia].
      - rewrite Hr. cbn [mbind res_bind]. rewrite nsub_ok by lia.
        eexists; split; [reflexivity|].
        split; [lia|]. split.
        + replace (l' + 1) with (size + (l' + 1 - size)) in H3 by lia.
          rewrite leaf_slice in H3 by lia. exact H3.
        + intros _. replace l' with (size + (l' + 1 - size - 1)) in H4 by lia.
          rewrite leaf_slice in H4 by lia. replace (size + (l' + 1 - size - 1) + 1 - size - 1) with (l' + 1 - size - 1) by lia. exact H4.
    Qed.

    Lemma min_left_ok r0 f : r0 <= n -> f e = true ->
      exists l, st_min_left e op t r0 f = Ok l /\ min_left_post e op a r0 f l.
    Proof.
      intros Hr0 Hfe. unfold st_min_left. pose proof size_pos as Hsz. pose proof (inv_le _ _ I) as Hns.
      pose proof (inv_size _ _ I) as Hsize.
      destruct (Nat.leb_spec r0 n); [|lia]. rewrite Hfe. cbn [rassert mbind res_bind].
      destruct (Nat.eqb_spec r0 0) as [->|Hne].
      { eexists; split; [reflexivity|].
        split; [lia|]. split; [rewrite slice_nil by lia; exact Hfe|lia]. }
      apply (rloop_inv_idx
        (fun m '(r, sm) => exists h, m + size = r * 2 ^ h /\ 0 < m /\ h <= sg_log t /\
            r * 2 ^ h <= size + r0 /\ sm = P (slice d (r * 2 ^ h) (size + r0)) /\ f sm = true)
        _ _) with (m := r0); [|exists 0; rewrite Nat.pow_0_r, Nat.mul_1_r|lia].
      2:{ split; [lia|]. split; [lia|]. split; [lia|]. split; [lia|].
          rewrite slice_nil by lia. split; [reflexivity|exact Hfe]. }
      intros m [r sm] (h & H1 & H2 & Hh & H3 & -> & H5). unfold st_min_left_step.
      assert (1 < r) as Hr.
      { assert (2 ^ h <= size) by (rewrite Hsize; apply Nat.pow_le_mono_r; lia). nia. }
      rewrite nsub_ok by lia. cbn [mbind res_bind].
      destruct (strip_odd_spec (r - 1) ltac:(lia)) as (k & r' & -> & Hrr & Hr' & Hev). cbn [mbind res_bind].
      replace (r - 1 + 1) with r in Hrr by lia.
      assert (r * 2 ^ h = (r' + 1) * 2 ^ (k + h)) as E by (rewrite Nat.pow_add_r; nia).
      rewrite E in *. clear E. generalize dependent (k + h). clear k h Hh r Hr Hrr.
      intros h H1 H3 H5. pose proof (pow2_pos h) as Hph.
      assert (h <= sg_log t) as Hh.
      { apply (Nat.pow_le_mono_r_iff 2); [lia|]. rewrite <- Hsize. nia. }
      assert (size = 2 ^ (sg_log t - h) * 2 ^ h) as Hq.
      { rewrite <- Nat.pow_add_r. replace (sg_log t - h + h) with (sg_log t) by lia. exact Hsize. }
      assert (size <= r' * 2 ^ h) as Hlo.
      { assert (2 ^ (sg_log t - h) < r' + 1) by (apply (Nat.mul_lt_mono_pos_r (2 ^ h)); lia).
        rewrite Hq. apply Nat.mul_le_mono_r. lia. }
      pose proof (node_prod h r' Hlo ltac:(lia)) as Hn.
      rewrite (vget_ok _ _ _ Hn). cbn [mbind res_bind].
      destruct (f (op (P (slice d (r' * 2 ^ h) ((r' + 1) * 2 ^ h)))
                  (P (slice d ((r' + 1) * 2 ^ h) (size + r0))))) eqn:Hf; cbn [negb].
      - rewrite <- (mprod_app _ _ L), slice_app in Hf |- * by nia.
        destruct (Nat.eqb_spec (lowbit r') r') as [Hp|Hnp]; cbn [negb].
        + eexists; split; [reflexivity|]. cbn.
          destruct (lowbit_eq_pow2 r') as [j Hj]; [lia|exact Hp|].
          assert (r' * 2 ^ h < 2 * size) as Hgt by nia.
          assert (r' * 2 ^ h = size) as E.
          { rewrite Hj in *. rewrite <- Nat.pow_add_r in *.
            assert (sg_log t <= j + h) as G1.
            { apply (Nat.pow_le_mono_r_iff 2); [lia|]. rewrite <- Hsize. lia. }
            assert (j + h < Datatypes.S (sg_log t)) as G2.
            { apply (Nat.pow_lt_mono_r_iff 2); [lia|]. rewrite Nat.pow_succ_r', <- Hsize.
              exact Hgt. }
            replace (j + h) with (sg_log t) by lia. symmetry. exact Hsize. }
          rewrite E in Hf. replace size with (size + 0) in Hf at 1 by lia.
          rewrite leaf_slice in Hf by lia.
          split; [lia|]. split; [exact Hf|lia].
        + eexists; split; [reflexivity|]. cbn.
          assert (r' * 2 ^ h <> size) as Hne2.
          { intros E. apply Hnp. rewrite Hq in E. apply Nat.mul_cancel_r in E; [|lia].
            rewrite E. apply lowbit_pow2. }
          exists (r' * 2 ^ h - size). split; [nia|].
          exists h. split; [nia|]. split; [nia|]. split; [lia|]. split; [nia|].
          split; [reflexivity|exact Hf].
      - destruct (descend_left_ok f r' h _ r0 Hlo ltac:(lia) ltac:(lia) eq_refl H5 Hf)
          as (l & -> & Hpost).
        cbn [mbind res_bind]. eexists; split; [reflexivity|]. exact Hpost.
    Qed.

    Lemma max_right_panic l0 f : (n < l0 \/ f e = false) -> st_max_right e op t l0 f = Panic.
    Proof.
      intros H. unfold st_max_right. destruct (Nat.leb_spec l0 n); [|reflexivity].
      destruct H as [H|H]; [lia|]. rewrite H. reflexivity.
    Qed.

    Lemma min_left_panic r0 f : (n < r0 \/ f e = false) -> st_min_left e op t r0 f = Panic.
    Proof.
      intros H. unfold st_min_left. destruct (Nat.leb_spec r0 n); [|reflexivity].
      destruct H as [H|H]; [lia|]. rewrite H. reflexivity.
    Qed.

    Lemma prod_panic l r : ~ (l <= r <= n) -> st_prod e op t l r = Panic.
    Proof.
      intros H. unfold st_prod. destruct (Nat.leb_spec l r); [|reflexivity].
      destruct (Nat.leb_spec r n); [lia|reflexivity].
    Qed.

    Lemma set_ok p x : p < n -> exists t', st_set op t p x = Ok t' /\ Inv t' (<[p := x]> a).
    Proof.
      intros Hp. unfold st_set. destruct (Nat.ltb_spec p n); [|lia].
      cbn [rassert mbind res_bind]. pose proof size_pos as Hsz. pose proof (inv_le _ _ I) as Hns.
      pose proof (inv_len _ _ I) as Hlen.
      rewrite vset_ok by lia. cbn [mbind res_bind].
      set (q := p + size). set (d0 := <[q:=x]> d).
      destruct (rfor_range_inv
        (fun i d' => length d' = 2 * size /\ (forall j, size <= j -> d' !! j = d0 !! j) /\
           (forall k, 1 <= k < size -> (forall j, i <= j -> k <> q / 2 ^ j) -> node d' k))
        1 (Datatypes.S (sg_log t)) (fun i d => st_update op d (q / 2 ^ i)) d0)
        as (d' & Hr & Hd' & Hhi & Hnode).
      - lia.
      - split; [unfold d0; rewrite insert_length; exact Hlen|]. split; [auto|].
        intros k Hk Hoff. apply (node_frame d); [apply (inv_node _ _ I); exact Hk| | |];
          unfold d0; apply list_lookup_insert_ne.
        + unfold q. lia.
        + intros E. apply (Hoff 1); [lia|]. rewrite E. change (2 ^ 1) with 2.
          rewrite Nat.mul_comm, Nat.div_mul; lia.
        + intros E. apply (Hoff 1); [lia|]. rewrite E. change (2 ^ 1) with 2.
          apply (Nat.div_unique _ _ _ 1); lia.
      - intros i s Hi (Hs & Hhi & Hn).
        assert (1 <= q / 2 ^ i < size) as Hk.
        { pose proof (pow2_pos i). rewrite (inv_size _ _ I). split.
          - apply Nat.div_le_lower_bound; [lia|]. rewrite Nat.mul_1_r.
            transitivity (sg_size t); [rewrite (inv_size _ _ I); apply Nat.pow_le_mono_r; lia|unfold q; lia].
          - apply Nat.div_lt_upper_bound; [lia|]. rewrite <- (inv_size _ _ I).
            assert (2 <= 2 ^ i) by (transitivity (2 ^ 1); [reflexivity|apply Nat.pow_le_mono_r; lia]).
            unfold q. nia. }
        destruct (st_update_ok s (q / 2 ^ i)) as (s' & Hu & Hls & Hns' & Hfr); [lia|lia|].
        exists s'. split; [exact Hu|]. split; [lia|]. split.
        + intros j Hj. rewrite Hfr by lia. apply Hhi. exact Hj.
        + intros k Hk' Hoff. destruct (decide (k = q / 2 ^ i)) as [->|Hne]; [exact Hns'|].
          assert (k <> q / 2 ^ i / 2) as Hpar.
          { rewrite Nat.div_div by (pose proof (pow2_pos i); lia).
            rewrite Nat.mul_comm, <- Nat.pow_succ_r'. apply Hoff. lia. }
          apply (node_frame s).
          * apply Hn; [exact Hk'|]. intros j Hj. destruct (decide (j = i)) as [->|]; [exact Hne|].
            apply Hoff. lia.
          * apply Hfr. exact Hne.
          * apply Hfr. intros E. apply Hpar. rewrite <- E.
            rewrite Nat.mul_comm, Nat.div_mul; lia.
          * apply Hfr. intros E. apply Hpar. rewrite <- E.
            apply (Nat.div_unique _ _ _ 1); lia.
      - unfold range_incl. fold q. rewrite Hr. cbn [mbind res_bind].
        eexists; split; [reflexivity|]. constructor; cbn [sg_n sg_size sg_log sg_d].
        + rewrite insert_length. apply (inv_n _ _ I).
        + apply (inv_size _ _ I).
        + exact Hns.
        + exact Hd'.
        + intros i Hi. rewrite Hhi by lia. unfold d0.
          destruct (decide (i = p)) as [->|Hne].
          * replace (size + p) with q by (unfold q; lia).
            rewrite !list_lookup_insert; [reflexivity| |lia]. rewrite <- (inv_n _ _ I). exact Hi.
          * rewrite !list_lookup_insert_ne by (unfold q; lia). apply (inv_leaf _ _ I). exact Hi.
        + intros i Hi. rewrite Hhi by lia. unfold d0.
          rewrite list_lookup_insert_ne by (unfold q; lia). apply (inv_pad _ _ I). exact Hi.
        + intros k Hk. apply Hnode; [exact Hk|]. intros j Hj E.
          assert (q / 2 ^ j = 0); [|lia]. apply Nat.div_small.
          apply Nat.lt_le_trans with (2 ^ Datatypes.S (sg_log t)).
          * rewrite Nat.pow_succ_r', <- (inv_size _ _ I). unfold q. lia.
          * apply Nat.pow_le_mono_r; lia.
    Qed.

    Lemma set_panic p x : n <= p -> st_set op t p x = Panic.
    Proof. intros H. unfold st_set. destruct (Nat.ltb_spec p n); [lia|reflexivity]. Qed.
  End Reads.

  (** ** Every history *)
  Lemma step_refines t a o : Inv t a ->
    match sg_spec_step e op a o with
    | Ok (a', out) => exists t', st_step e op t o = Ok (t', out) /\ Inv t' a'
    | Panic => st_step e op t o = Panic
    | Diverge => False
    end.
  Proof.
    intros I. destruct o as [p x|p|l r|]; cbn [sg_spec_step st_step].
    - destruct (Nat.ltb_spec p (length a)) as [Hp|Hp]; rewrite <- (inv_n _ _ I) in Hp.
      + destruct (set_ok t a I p x Hp) as (t' & -> & I'). cbn. eauto.
      + rewrite (set_panic t p x Hp). reflexivity.
    - rewrite (get_ok t a I). destruct (a !! p); cbn; eauto.
    - destruct (Nat.leb_spec l r) as [Hl|Hl]; [destruct (Nat.leb_spec r (length a)) as [Hr|Hr]|];
        cbn [andb]; try rewrite <- (inv_n _ _ I) in Hr.
      + rewrite (prod_ok t a I) by lia. cbn. eauto.
      + rewrite prod_panic by lia. reflexivity.
      + rewrite prod_panic by lia. reflexivity.
    - rewrite (all_prod_ok t a I). cbn. eauto.
  Qed.

  Lemma run_refines ops : forall t a, Inv t a ->
    match run (sg_spec_step e op) a ops with
    | Ok (a', outs) => exists t', run (st_step e op) t ops = Ok (t', outs) /\ Inv t' a'
    | Panic => run (st_step e op) t ops = Panic
    | Diverge => False
    end.
  Proof.
    induction ops as [|o ops IH]; intros t a I; cbn [run].
    - eauto.
    - pose proof (step_refines t a o I) as Hs.
      destruct (sg_spec_step e op a o) as [[a1 out]| |]; [|rewrite Hs; reflexivity|contradiction].
      destruct Hs as (t1 & -> & I1). cbn [mbind res_bind].
      specialize (IH t1 a1 I1).
      destruct (run (sg_spec_step e op) a1 ops) as [[a2 outs]| |]; [|rewrite IH; reflexivity|contradiction].
      destruct IH as (t2 & -> & I2). cbn [mbind res_bind]. eauto.
  Qed.
End Proof.
