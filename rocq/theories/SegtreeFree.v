(** The reads of the segment tree without any law: the invariant of SegtreeProof.v needs none. *)
From Verif Require Import Prelude UtilModel UtilProof ArraySpec SegtreeSpec SegtreeModel SegtreeProof FreeSpec.

Section Free.
  Context {S : Type} (e : S) (op : S -> S -> S).
  Local Notation B := (brackets e op).

  Lemma br_slice a (l m r : nat) x y : l <= m -> m <= r -> B (slice a l m) x -> B (slice a m r) y -> B (slice a l r) (op x y).
  Proof. intros H1 H2 Hx Hy. rewrite <- (slice_app a l m r) by lia. apply br_op; assumption. Qed.

  Section Reads.
    Context (t : segtree S) (a : list S) (I : Inv e op t a) (Hmin : 0 < sg_n t -> sg_size t < 2 * sg_n t).
    Local Notation n := (sg_n t).
    Local Notation size := (sg_size t).
    Local Notation d := (sg_d t).

    Lemma slice_over l r : n <= l -> slice a l r = [].
    Proof. intros H. unfold slice. rewrite drop_ge by (rewrite <- (inv_n _ _ _ _ I); exact H). apply take_nil. Qed.
    Lemma slice_end l r : n <= r -> slice a l r = slice a l n.
    Proof.
      intros H. destruct (le_lt_dec n l) as [Hl|Hl]; [rewrite !slice_over by lia; reflexivity|].
      rewrite <- (slice_app a l n r) by lia. rewrite (slice_over n r) by lia. apply app_nil_r.
    Qed.

    (** A node holds a product of the elements below it. *)
    Lemma node_br h : forall k, size <= k * 2 ^ h -> (k + 1) * 2 ^ h <= 2 * size ->
      exists x, d !! k = Some x /\ B (slice a (k * 2 ^ h - size) ((k + 1) * 2 ^ h - size)) x.
    Proof.
      pose proof (size_pos e op t a I) as Hsz.
      induction h as [|h IH]; intros k Hlo Hhi.
      - rewrite Nat.pow_0_r, !Nat.mul_1_r in *. destruct (Nat.le_exists_sub size k Hlo) as (i & -> & _). rewrite (Nat.add_comm i size) in *.
        replace (size + i - size) with i by lia. replace (size + i + 1 - size) with (i + 1) by lia.
        destruct (le_lt_dec n i) as [Hi|Hi].
        + exists e. split; [apply (inv_pad _ _ _ _ I); lia|]. rewrite slice_over by lia. constructor.
        + destruct (lookup_lt_is_Some_2 a i) as [x Hx]; [rewrite <- (inv_n _ _ _ _ I); exact Hi|].
          exists x. split; [rewrite (inv_leaf _ _ _ _ I) by exact Hi; exact Hx|]. rewrite (slice_single a i x Hx). constructor.
      - rewrite Nat.pow_succ_r' in *. pose proof (pow2_pos h) as Hp.
        destruct (inv_node _ _ _ _ I k) as (x & y & H1 & H2 & H3); [nia|].
        destruct (IH (2 * k)) as (x' & E1 & B1); [nia|nia|]. destruct (IH (2 * k + 1)) as (y' & E2 & B2); [nia|nia|].
        rewrite H1 in E1. rewrite H2 in E2. injection E1 as <-. injection E2 as <-.
        exists (op x y). split; [exact H3|].
        replace (k * (2 * 2 ^ h)) with (2 * k * 2 ^ h) by nia. replace ((k + 1) * (2 * 2 ^ h)) with ((2 * k + 1 + 1) * 2 ^ h) by nia.
        apply (br_slice a _ ((2 * k + 1) * 2 ^ h - size)); [nia|nia|exact B1|exact B2].
    Qed.

    Lemma all_prod_br : exists x, st_all_prod t = Ok x /\ B a x.
    Proof.
      pose proof (inv_size _ _ _ _ I) as Hs. pose proof (inv_le _ _ _ _ I) as Hle.
      destruct (node_br (sg_log t) 1) as (x & Hx & Bx); [lia|lia|]. exists x. split; [apply vget_ok; exact Hx|].
      rewrite <- Hs in Bx. rewrite slice_end in Bx by lia. replace (1 * size - size) with 0 in Bx by lia.
      rewrite (inv_n _ _ _ _ I), slice_full in Bx. exact Bx.
    Qed.

    Lemma prod_br l r : l <= r <= n -> exists x, st_prod e op t l r = Ok x /\ B (slice a l r) x.
    Proof.
      intros Hlr. unfold st_prod. pose proof (size_pos e op t a I) as Hsz. pose proof (inv_le _ _ _ _ I) as Hns.
      destruct (Nat.leb_spec l r); [|lia]. destruct (Nat.leb_spec r n); [|lia].
      cbn [andb rassert mbind res_bind].
      destruct (rloop_inv_idx
        (fun m '(l', r', sml, smr) => m = r' /\ exists h,
            size + l <= l' * 2 ^ h /\ l' <= r' /\ r' * 2 ^ h <= size + r /\
            B (slice a l (l' * 2 ^ h - size)) sml /\ B (slice a (r' * 2 ^ h - size) r) smr)
        (fun '(sml, smr) => B (slice a l r) (op sml smr))
        (st_prod_step op d)) with (fuel := r + size + 1) (m := r + size)
        (s := (l + size, r + size, e, e)) as ([sml smr] & Hr & Hq).
      - intros m [[[l' r'] sml] smr] (-> & h & H1 & H2 & H3 & H4 & H4').
        unfold st_prod_step. pose proof (pow2_pos h) as Hph.
        destruct (Nat.ltb_spec l' r') as [Hlt|Hge].
        2:{ eexists; split; [reflexivity|]. cbn. replace r' with l' in * by lia. apply (br_slice a l (l' * 2 ^ h - size) r); [lia|lia|exact H4|exact H4']. }
        assert (exists l1 sml1,
          (if Nat.odd l' then x ← vget d l'; Ok (l' + 1, op sml x) else Ok (l', sml)) = Ok (l1, sml1) /\
          Nat.even l1 = true /\ l' <= l1 <= r' /\ B (slice a l (l1 * 2 ^ h - size)) sml1) as (l1 & sml1 & -> & He1 & Hl1 & H5).
        { destruct (Nat.odd l') eqn:Ho.
          - destruct (node_br h l') as (x & Hx & Bx); [lia|nia|].
            rewrite (vget_ok _ _ _ Hx). cbn [mbind res_bind].
            eexists _, _; split; [reflexivity|]. split.
            { rewrite Nat.add_1_r, Nat.even_succ. exact Ho. }
            split; [lia|]. apply (br_slice a l (l' * 2 ^ h - size)); [lia|nia|exact H4|exact Bx].
          - eexists _, _; split; [reflexivity|]. split; [rewrite <- Nat.negb_odd, Ho; reflexivity|].
            split; [lia|]. exact H4. }
        cbn [mbind res_bind].
        assert (exists r1 smr1,
          (if Nat.odd r' then r ← nsub r' 1; x ← vget d r; Ok (r, op x smr) else Ok (r', smr)) = Ok (r1, smr1) /\
          Nat.even r1 = true /\ l1 <= r1 <= r' /\ B (slice a (r1 * 2 ^ h - size) r) smr1) as (r1 & smr1 & -> & He2 & Hr1 & H6).
        { destruct (Nat.odd r') eqn:Ho.
          - assert (l1 < r') as Hlr1.
            { destruct (decide (l1 = r')) as [->|]; [|lia].
              rewrite <- Nat.negb_odd, Ho in He1. discriminate. }
            rewrite nsub_ok by lia. cbn [mbind res_bind].
            destruct (node_br h (r' - 1)) as (x & Hx & Bx); [nia|nia|].
            rewrite (vget_ok _ _ _ Hx). cbn [mbind res_bind].
            eexists _, _; split; [reflexivity|]. split.
            { destruct r' as [|r'']; [lia|]. rewrite Nat.odd_succ in Ho.
              replace (Datatypes.S r'' - 1) with r'' by lia. exact Ho. }
            split; [lia|]. replace (r' - 1 + 1) with r' in Bx by lia.
            apply (br_slice a _ (r' * 2 ^ h - size)); [nia|lia|exact Bx|exact H4'].
          - eexists _, _; split; [reflexivity|]. split; [rewrite <- Nat.negb_odd, Ho; reflexivity|].
            split; [lia|]. exact H4'. }
        cbn [mbind res_bind]. eexists; split; [reflexivity|]. cbn.
        apply Nat.even_spec in He1, He2. destruct He1 as [l2 ->]. destruct He2 as [r2 ->].
        assert (2 * l2 / 2 = l2) as El by (rewrite Nat.mul_comm; apply Nat.div_mul; lia).
        assert (2 * r2 / 2 = r2) as Er by (rewrite Nat.mul_comm; apply Nat.div_mul; lia).
        exists r2.
        split; [lia|]. split; [symmetry; exact Er|]. exists (Datatypes.S h).
        rewrite El, Er, Nat.pow_succ_r'.
        replace (l2 * (2 * 2 ^ h)) with (2 * l2 * 2 ^ h) by nia. replace (r2 * (2 * 2 ^ h)) with (2 * r2 * 2 ^ h) by nia.
        split; [nia|]. split; [lia|]. split; [nia|]. split; [exact H5|exact H6].
      - split; [reflexivity|]. exists 0. rewrite Nat.pow_0_r, !Nat.mul_1_r.
        split; [lia|]. split; [lia|]. split; [lia|].
        rewrite !slice_nil by lia. split; constructor.
      - lia.
      - rewrite Hr. cbn [mbind res_bind]. eexists; split; [reflexivity|exact Hq].
    Qed.

    Lemma descend_right_br f l h sm l0 :
      (l + 1) * 2 ^ h <= 2 * size -> l0 < n -> size + l0 <= l * 2 ^ h ->
      B (slice a l0 (l * 2 ^ h - size)) sm -> f sm = true ->
      (exists x, d !! l = Some x /\ f (op sm x) = false) ->
      exists r, st_descend_right op d size f l sm = Ok r /\ max_right_any e op a l0 f r.
    Proof.
      intros Hhi Hl0 Hl0l Hsm Hft Hff. unfold st_descend_right. pose proof (size_pos e op t a I) as Hsz.
      match goal with |- context [rloop _ ?st _] => set (step := st) end.
      destruct (rloop_inv_idx
        (fun h '(l, sm) => (l + 1) * 2 ^ h <= 2 * size /\ size + l0 <= l * 2 ^ h /\
           B (slice a l0 (l * 2 ^ h - size)) sm /\ f sm = true /\
           (exists y, B (slice a l0 ((l + 1) * 2 ^ h - size)) y /\ f y = false))
        (fun l => size <= l < 2 * size /\ size + l0 <= l /\ exists sm, B (slice a l0 (l - size)) sm /\ f sm = true /\
           (exists y, B (slice a l0 (l + 1 - size)) y /\ f y = false))
        step) with (fuel := size + 1) (m := h) (s := (l, sm)) as (l' & Hr & H1 & H2 & sm' & H3 & H4 & y & H6 & H7).
      - clear l h sm Hhi Hl0l Hsm Hft Hff.
        intros h [l sm] (H2 & H3 & H4 & H5 & y & H8 & H9). unfold step.
        pose proof (pow2_pos h) as Hph.
        destruct h as [|h].
        + rewrite Nat.pow_0_r, !Nat.mul_1_r in *.
          destruct (Nat.ltb_spec l size); [lia|]. eexists; split; [reflexivity|]. cbn.
          split; [lia|]. split; [exact H3|]. exists sm. split; [exact H4|]. split; [exact H5|]. exists y. auto.
        + pose proof (pow2_pos h) as Hph'. rewrite Nat.pow_succ_r' in *.
          destruct (Nat.ltb_spec l size); [|nia].
          destruct (node_br h (2 * l)) as (x & Hx & Bx); [nia|nia|].
          rewrite (vget_ok _ _ _ Hx). cbn [mbind res_bind].
          replace (l * (2 * 2 ^ h)) with (2 * l * 2 ^ h) in * by nia.
          replace ((l + 1) * (2 * 2 ^ h)) with ((2 * l + 1 + 1) * 2 ^ h) in * by nia.
          assert (B (slice a l0 ((2 * l + 1) * 2 ^ h - size)) (op sm x)) as Bs
            by (apply (br_slice a l0 (2 * l * 2 ^ h - size)); [lia|nia|exact H4|exact Bx]).
          destruct (f (op sm x)) eqn:Hf.
          * eexists; split; [reflexivity|]. cbn [fst snd]. exists h. split; [lia|].
            split; [nia|]. split; [nia|]. split; [exact Bs|].
            split; [exact Hf|]. exists y. auto.
          * eexists; split; [reflexivity|]. cbn [fst snd]. exists h. split; [lia|].
            split; [nia|]. split; [nia|]. split; [exact H4|]. split; [exact H5|].
            exists (op sm x). auto.
      - split; [exact Hhi|]. split; [exact Hl0l|]. split; [exact Hsm|]. split; [exact Hft|]. destruct Hff as (x & Hx & Hf).
        destruct (node_br h l) as (x' & Hx' & Bx); [lia|exact Hhi|]. rewrite Hx in Hx'. injection Hx' as <-.
        exists (op sm x). pose proof (pow2_pos h). split; [|exact Hf].
        apply (br_slice a l0 (l * 2 ^ h - size)); [lia|nia|exact Hsm|exact Bx].
      - apply (height_bound t h l); [|exact Hhi]. pose proof (pow2_pos h). nia.
      - rewrite Hr. cbn [mbind res_bind]. rewrite nsub_ok by lia.
        eexists; split; [reflexivity|]. pose proof (Hmin ltac:(lia)) as Hs2. rewrite (inv_n _ _ _ _ I) in Hl0, Hs2.
        split; [lia|]. split; [right; lia|]. split; [exists sm'; auto|]. intros _. exists y. split; [|exact H7]. replace (l' - size + 1) with (l' + 1 - size) by lia. exact H6.
    Qed.

    Lemma max_right_br l0 f : l0 <= n -> f e = true ->
      exists r, st_max_right e op t l0 f = Ok r /\ max_right_any e op a l0 f r.
    Proof.
      intros Hl0 Hfe. unfold st_max_right. pose proof (size_pos e op t a I) as Hsz. pose proof (inv_le _ _ _ _ I) as Hns.
      pose proof (inv_size _ _ _ _ I) as Hsize.
      destruct (Nat.leb_spec l0 n); [|lia]. rewrite Hfe. cbn [rassert mbind res_bind].
      destruct (Nat.eqb_spec l0 n) as [->|Hne].
      { eexists; split; [reflexivity|]. rewrite (inv_n _ _ _ _ I) in *.
        split; [lia|]. split; [left; lia|]. split; [exists e; split; [rewrite slice_nil by lia; constructor|exact Hfe]|lia]. }
      apply (rloop_inv_idx
        (fun m '(l, sm) => exists h, m + l * 2 ^ h = 2 * size /\ 0 < m /\
            size + l0 <= l * 2 ^ h /\ B (slice a l0 (l * 2 ^ h - size)) sm /\ f sm = true)
        _ _) with (m := size - l0); [|exists 0; rewrite Nat.pow_0_r, Nat.mul_1_r|lia].
      2:{ split; [lia|]. split; [lia|]. split; [lia|].
          rewrite slice_nil by lia. split; [constructor|exact Hfe]. }
      intros m [l sm] (h & H1 & H2 & H3 & H4 & H5). unfold st_max_right_step.
      assert (0 < l) as Hl by nia.
      destruct (strip_even_spec l Hl) as (k & l' & -> & Hll & Hodd). cbn [mbind res_bind].
      assert (l * 2 ^ h = l' * 2 ^ (k + h)) as E by (rewrite Nat.pow_add_r; nia).
      rewrite E in *. clear E. generalize dependent (k + h). clear k h l Hl Hll.
      intros h H1 H3 H4. pose proof (pow2_pos h) as Hph.
      assert (0 < l') as Hl' by nia.
      assert (exists q, 2 * size = q * 2 ^ h) as [q Hq].
      { assert (h < sg_log t + 1) as Hh.
        { apply (Nat.pow_lt_mono_r_iff 2); [lia|]. rewrite Nat.add_1_r, Nat.pow_succ_r', <- Hsize. nia. }
        exists (2 ^ (sg_log t + 1 - h)). rewrite <- Nat.pow_add_r.
        replace (sg_log t + 1 - h + h) with (Datatypes.S (sg_log t)) by lia.
        rewrite Nat.pow_succ_r', <- Hsize. reflexivity. }
      assert ((l' + 1) * 2 ^ h <= 2 * size) as Hhi.
      { assert (l' < q) by (apply (Nat.mul_lt_mono_pos_r (2 ^ h)); lia).
        rewrite Hq. apply Nat.mul_le_mono_r. lia. }
      destruct (node_br h l' ltac:(lia) Hhi) as (x & Hx & Bx).
      rewrite (vget_ok _ _ _ Hx). cbn [mbind res_bind].
      destruct (f (op sm x)) eqn:Hf; cbn [negb].
      - assert (B (slice a l0 ((l' + 1) * 2 ^ h - size)) (op sm x)) as Bs
          by (apply (br_slice a l0 (l' * 2 ^ h - size)); [lia|nia|exact H4|exact Bx]).
        destruct (Nat.eqb_spec (lowbit (l' + 1)) (l' + 1)) as [Hp|Hnp]; cbn [negb].
        + eexists; split; [reflexivity|]. cbn.
          destruct (lowbit_eq_pow2 (l' + 1)) as [j Hj]; [lia|exact Hp|].
          assert (size < (l' + 1) * 2 ^ h) as Hgt by nia.
          assert ((l' + 1) * 2 ^ h = 2 * size) as E.
          { rewrite Hj in *. rewrite <- Nat.pow_add_r in *.
            assert (sg_log t < j + h) as G1.
            { apply (Nat.pow_lt_mono_r_iff 2); [lia|]. rewrite <- Hsize. exact Hgt. }
            assert (j + h <= Datatypes.S (sg_log t)) as G2.
            { apply (Nat.pow_le_mono_r_iff 2); [lia|]. rewrite Nat.pow_succ_r', <- Hsize. lia. }
            replace (j + h) with (Datatypes.S (sg_log t)) by lia.
            rewrite Nat.pow_succ_r', <- Hsize. reflexivity. }
          rewrite E in Bs. rewrite slice_end in Bs by lia. rewrite (inv_n _ _ _ _ I) in *.
          split; [lia|]. split; [left; lia|]. split; [eauto|lia].
        + eexists; split; [reflexivity|]. cbn.
          assert ((l' + 1) * 2 ^ h <> 2 * size) as Hne2.
          { intros E. apply Hnp.
            assert (h <= Datatypes.S (sg_log t)) as Hh.
            { apply (Nat.pow_le_mono_r_iff 2); [lia|]. rewrite Nat.pow_succ_r', <- Hsize. nia. }
            assert (l' + 1 = 2 ^ (Datatypes.S (sg_log t) - h)) as ->.
            { apply (Nat.mul_cancel_r _ _ (2 ^ h)); [lia|]. rewrite E, <- Nat.pow_add_r.
              replace (Datatypes.S (sg_log t) - h + h) with (Datatypes.S (sg_log t)) by lia.
              rewrite Nat.pow_succ_r', <- Hsize. reflexivity. }
            apply lowbit_pow2. }
          exists (2 * size - (l' + 1) * 2 ^ h). split; [nia|].
          exists h. split; [nia|]. split; [nia|]. split; [nia|]. split; [exact Bs|exact Hf].
      - destruct (descend_right_br f l' h sm l0 Hhi ltac:(lia) ltac:(nia) H4 H5 (ex_intro _ x (conj Hx Hf)))
          as (r & -> & Hpost).
        cbn [mbind res_bind]. eexists; split; [reflexivity|]. exact Hpost.
    Qed.

    Lemma descend_left_br f r h sm r0 :
      size <= r * 2 ^ h -> (r + 1) * 2 ^ h <= size + r0 -> r0 <= n ->
      B (slice a ((r + 1) * 2 ^ h - size) r0) sm -> f sm = true ->
      (exists x, d !! r = Some x /\ f (op x sm) = false) ->
      exists l, st_descend_left op d size f r sm = Ok l /\ min_left_any e op a r0 f l.
    Proof.
      intros Hlo Hhi Hr0 Hsm Hft Hff. unfold st_descend_left. pose proof (size_pos e op t a I) as Hsz.
      pose proof (inv_le _ _ _ _ I) as Hns.
      match goal with |- context [rloop _ ?st _] => set (step := st) end.
      destruct (rloop_inv_idx
        (fun h '(r, sm) => size <= r * 2 ^ h /\ (r + 1) * 2 ^ h <= size + r0 /\
           B (slice a ((r + 1) * 2 ^ h - size) r0) sm /\ f sm = true /\
           (exists y, B (slice a (r * 2 ^ h - size) r0) y /\ f y = false))
        (fun r => size <= r /\ r + 1 <= size + r0 /\ exists sm, B (slice a (r + 1 - size) r0) sm /\ f sm = true /\
           (exists y, B (slice a (r - size) r0) y /\ f y = false))
        step) with (fuel := size + 1) (m := h) (s := (r, sm)) as (l' & Hr & H1 & H2 & sm' & H3 & H4 & y & H6 & H7).
      - clear r h sm Hlo Hhi Hsm Hft Hff.
        intros h [r sm] (H1 & H2 & H4 & H5 & y & H8 & H9). unfold step.
        pose proof (pow2_pos h) as Hph.
        destruct h as [|h].
        + rewrite Nat.pow_0_r, !Nat.mul_1_r in *.
          destruct (Nat.ltb_spec r size); [lia|]. eexists; split; [reflexivity|]. cbn [fst snd].
          split; [lia|]. split; [exact H2|]. exists sm. split; [exact H4|]. split; [exact H5|]. exists y. auto.
        + pose proof (pow2_pos h) as Hph'. rewrite Nat.pow_succ_r' in *.
          destruct (Nat.ltb_spec r size); [|nia].
          destruct (node_br h (2 * r + 1)) as (x & Hx & Bx); [nia|nia|].
          rewrite (vget_ok _ _ _ Hx). cbn [mbind res_bind].
          replace (r * (2 * 2 ^ h)) with (2 * r * 2 ^ h) in * by nia.
          replace ((r + 1) * (2 * 2 ^ h)) with ((2 * r + 1 + 1) * 2 ^ h) in * by nia.
          assert (B (slice a ((2 * r + 1) * 2 ^ h - size) r0) (op x sm)) as Bs
            by (apply (br_slice a _ ((2 * r + 1 + 1) * 2 ^ h - size)); [nia|lia|exact Bx|exact H4]).
          destruct (f (op x sm)) eqn:Hf.
          * rewrite nsub_ok by lia. cbn [mbind res_bind].
            eexists; split; [reflexivity|]. cbn [fst snd]. exists h. split; [lia|].
            replace (2 * r + 1 - 1) with (2 * r) by lia.
            split; [nia|]. split; [nia|]. split; [exact Bs|]. split; [exact Hf|]. exists y. auto.
          * eexists; split; [reflexivity|]. cbn [fst snd]. exists h. split; [lia|].
            split; [nia|]. split; [nia|]. split; [exact H4|]. split; [exact H5|].
            exists (op x sm). auto.
      - split; [exact Hlo|]. split; [exact Hhi|]. split; [exact Hsm|]. split; [exact Hft|]. destruct Hff as (x & Hx & Hf).
        destruct (node_br h r) as (x' & Hx' & Bx); [lia|lia|]. rewrite Hx in Hx'. injection Hx' as <-.
        exists (op x sm). split; [|exact Hf].
        apply (br_slice a _ ((r + 1) * 2 ^ h - size)); [nia|lia|exact Bx|exact Hsm].
      - apply (height_bound t h r); [pose proof (pow2_pos h); nia|lia].
      - rewrite Hr. cbn [mbind res_bind]. rewrite nsub_ok by lia.
        eexists; split; [reflexivity|].
        split; [lia|]. split; [exists sm'; auto|]. intros _. exists y. split; [|exact H7]. replace (l' + 1 - size - 1) with (l' - size) by lia. exact H6.
    Qed.

    Lemma min_left_br r0 f : r0 <= n -> f e = true ->
      exists l, st_min_left e op t r0 f = Ok l /\ min_left_any e op a r0 f l.
    Proof.
      intros Hr0 Hfe. unfold st_min_left. pose proof (size_pos e op t a I) as Hsz. pose proof (inv_le _ _ _ _ I) as Hns.
      pose proof (inv_size _ _ _ _ I) as Hsize.
      destruct (Nat.leb_spec r0 n); [|lia]. rewrite Hfe. cbn [rassert mbind res_bind].
      destruct (Nat.eqb_spec r0 0) as [->|Hne].
      { eexists; split; [reflexivity|].
        split; [lia|]. split; [exists e; split; [rewrite slice_nil by lia; constructor|exact Hfe]|lia]. }
      apply (rloop_inv_idx
        (fun m '(r, sm) => exists h, m + size = r * 2 ^ h /\ 0 < m /\ h <= sg_log t /\
            r * 2 ^ h <= size + r0 /\ B (slice a (r * 2 ^ h - size) r0) sm /\ f sm = true)
        _ _) with (m := r0); [|exists 0; rewrite Nat.pow_0_r, Nat.mul_1_r|lia].
      2:{ split; [lia|]. split; [lia|]. split; [lia|]. split; [lia|].
          rewrite slice_nil by lia. split; [constructor|exact Hfe]. }
      intros m [r sm] (h & H1 & H2 & Hh & H3 & H4 & H5). unfold st_min_left_step.
      assert (1 < r) as Hr.
      { assert (2 ^ h <= size) by (rewrite Hsize; apply Nat.pow_le_mono_r; lia). nia. }
      rewrite nsub_ok by lia. cbn [mbind res_bind].
      destruct (strip_odd_spec (r - 1) ltac:(lia)) as (k & r' & -> & Hrr & Hr' & Hev). cbn [mbind res_bind].
      replace (r - 1 + 1) with r in Hrr by lia.
      assert (r * 2 ^ h = (r' + 1) * 2 ^ (k + h)) as E by (rewrite Nat.pow_add_r; nia).
      rewrite E in *. clear E. generalize dependent (k + h). clear k h Hh r Hr Hrr.
      intros h H1 H3 H4. pose proof (pow2_pos h) as Hph.
      assert (h <= sg_log t) as Hh.
      { apply (Nat.pow_le_mono_r_iff 2); [lia|]. rewrite <- Hsize. nia. }
      assert (size = 2 ^ (sg_log t - h) * 2 ^ h) as Hq.
      { rewrite <- Nat.pow_add_r. replace (sg_log t - h + h) with (sg_log t) by lia. exact Hsize. }
      assert (size <= r' * 2 ^ h) as Hlo.
      { assert (2 ^ (sg_log t - h) < r' + 1) by (apply (Nat.mul_lt_mono_pos_r (2 ^ h)); lia).
        rewrite Hq. apply Nat.mul_le_mono_r. lia. }
      destruct (node_br h r' Hlo ltac:(lia)) as (x & Hx & Bx).
      rewrite (vget_ok _ _ _ Hx). cbn [mbind res_bind].
      destruct (f (op x sm)) eqn:Hf; cbn [negb].
      - assert (B (slice a (r' * 2 ^ h - size) r0) (op x sm)) as Bs
          by (apply (br_slice a _ ((r' + 1) * 2 ^ h - size)); [nia|lia|exact Bx|exact H4]).
        destruct (Nat.eqb_spec (lowbit r') r') as [Hp|Hnp]; cbn [negb].
        + eexists; split; [reflexivity|]. cbn.
          destruct (lowbit_eq_pow2 r') as [j Hj]; [lia|exact Hp|].
          assert (r' * 2 ^ h < 2 * size) as Hgt by nia.
          assert (r' * 2 ^ h = size) as E.
          { rewrite Hj in *. rewrite <- Nat.pow_add_r in *.
            assert (sg_log t <= j + h) as G1.
            { apply (Nat.pow_le_mono_r_iff 2); [lia|]. rewrite <- Hsize. lia. }
            assert (j + h < Datatypes.S (sg_log t)) as G2.
            { apply (Nat.pow_lt_mono_r_iff 2); [lia|]. rewrite Nat.pow_succ_r', <- Hsize.
              exact Hgt. }
            replace (j + h) with (sg_log t) by lia. symmetry. exact Hsize. }
          rewrite E, Nat.sub_diag in Bs.
          split; [lia|]. split; [eauto|lia].
        + eexists; split; [reflexivity|]. cbn.
          assert (r' * 2 ^ h <> size) as Hne2.
          { intros E. apply Hnp. rewrite Hq in E. apply Nat.mul_cancel_r in E; [|lia].
            rewrite E. apply lowbit_pow2. }
          exists (r' * 2 ^ h - size). split; [nia|].
          exists h. split; [nia|]. split; [nia|]. split; [lia|]. split; [nia|].
          split; [exact Bs|exact Hf].
      - destruct (descend_left_br f r' h sm r0 Hlo ltac:(lia) ltac:(lia) H4 H5 (ex_intro _ x (conj Hx Hf)))
          as (l & -> & Hpost).
        cbn [mbind res_bind]. eexists; split; [reflexivity|]. exact Hpost.
    Qed.
  End Reads.

  (** The tree is not larger than necessary. *)
  Definition Fits (t : segtree S) (a : list S) : Prop := Inv e op t a /\ (0 < sg_n t -> sg_size t < 2 * sg_n t).

  Lemma from_fits v : (Z.of_nat (length v) < 2 ^ 32)%Z -> exists t, st_from e op v = Ok t /\ Fits t v.
  Proof.
    intros Hlen. destruct (st_from_inv e op v Hlen) as (t & Ht & I). exists t. split; [exact Ht|]. split; [exact I|].
    intros Hn. rewrite (inv_n _ _ _ _ I) in *. unfold st_from in Ht. rewrite Z.mod_small, ceil_lg_spec in Ht by lia. cbn [mbind res_bind] in Ht.
    apply rbind_ok_inv in Ht as (d & _ & Ht). apply rbind_ok_inv in Ht as (d' & _ & Ht). injection Ht as <-. cbn [sg_size].
    apply Nat2Z.inj_lt. rewrite Nat2Z.inj_pow, Z2Nat.id by apply Z.log2_up_nonneg. rewrite Nat2Z.inj_mul. change (Z.of_nat 2) with 2%Z.
    destruct (decide (length v = 1)) as [->|H1]; [reflexivity|].
    pose proof (Z.log2_up_spec (Z.of_nat (length v)) ltac:(lia)) as [Hlo _].
    pose proof (Z.log2_up_pos (Z.of_nat (length v)) ltac:(lia)) as Hp.
    rewrite <- Z.sub_1_r in Hlo. replace (Z.log2_up (Z.of_nat (length v))) with (1 + (Z.log2_up (Z.of_nat (length v)) - 1))%Z by lia.
    rewrite Z.pow_add_r by lia. lia.
  Qed.

  Lemma set_fits t a p x : Fits t a -> p < length a -> exists t', st_set op t p x = Ok t' /\ Fits t' (<[p := x]> a).
  Proof.
    intros [I M] Hp. rewrite <- (inv_n _ _ _ _ I) in Hp. destruct (set_ok e op t a I p x Hp) as (t' & Ht & I'). exists t'. split; [exact Ht|]. split; [exact I'|].
    unfold st_set in Ht. destruct (p <? sg_n t); [|discriminate]. cbn [rassert mbind res_bind] in Ht.
    apply rbind_ok_inv in Ht as (d & _ & Ht). apply rbind_ok_inv in Ht as (d' & _ & Ht). injection Ht as <-. exact M.
  Qed.

  (** Every call does what the plain array allows. *)
  Lemma step_any t a o : Fits t a ->
    match st_step e op t o with
    | Ok (t', out) => exists a', sg_any e op a o (Ok (a', out)) /\ Fits t' a'
    | Panic => sg_any e op a o Panic
    | Diverge => False
    end.
  Proof.
    intros F. pose proof F as [I M]. pose proof (inv_n _ _ _ _ I) as En. destruct o as [p x|p|l r|]; cbn [st_step sg_any sg_spec_step].
    - destruct (Nat.ltb_spec p (length a)) as [Hp|Hp].
      + destruct (set_fits t a p x F Hp) as (t' & -> & F'). cbn [mbind res_bind]. eauto.
      + rewrite (set_panic op t p x) by lia. reflexivity.
    - rewrite (get_ok e op t a I). destruct (a !! p); cbn [mbind res_bind]; [eauto|reflexivity].
    - destruct (Nat.leb_spec l r) as [H1|H1]; [destruct (Nat.leb_spec r (length a)) as [H2|H2]|]; cbn [andb].
      + destruct (prod_br t a I M l r) as (x & -> & Bx); [lia|]. cbn [mbind res_bind]. exists a. eauto.
      + rewrite (prod_panic e op t) by lia. reflexivity.
      + rewrite (prod_panic e op t) by lia. reflexivity.
    - destruct (all_prod_br t a I M) as (x & -> & Bx). cbn [mbind res_bind]. exists a. eauto.
  Qed.

  Lemma history_any ops : forall t a, Fits t a ->
    match run (st_step e op) t ops with
    | Ok (t', outs) => exists a', allowed_run (sg_any e op) a ops (Ok (a', outs)) /\ Fits t' a'
    | Panic => allowed_run (sg_any e op) a ops Panic
    | Diverge => False
    end.
  Proof.
    induction ops as [|o ops IH]; intros t a F; cbn [run]; [exists a; split; [constructor|exact F]|].
    pose proof (step_any t a o F) as H. destruct (st_step e op t o) as [[t' out]| |]; cbn [mbind res_bind]; [|constructor; exact H|destruct H].
    destruct H as (a' & Ha & F'). specialize (IH t' a' F'). destruct (run (st_step e op) t' ops) as [[t2 outs]| |]; cbn [mbind res_bind].
    - destruct IH as (a2 & Hr & F2). exists a2. split; [eapply ar_ok; eassumption|exact F2].
    - eapply ar_later; eassumption.
    - destruct IH.
  Qed.
End Free.

(** With laws there is only one product. *)
Lemma brackets_lawful {S} (e : S) (op : S -> S -> S) : monoid_laws e op -> forall l x, brackets e op l x -> x = mprod e op l.
Proof.
  intros L l x H. induction H as [|x|l1 l2 x y _ -> _ ->]; [reflexivity|symmetry; apply (mprod_single _ _ L)|symmetry; apply (mprod_app _ _ L)].
Qed.
