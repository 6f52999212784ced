(** Over an operation that may panic the segment tree does the same as over the total one, as long as range products are good. *)
From Verif Require Import Prelude UtilModel UtilProof ArraySpec SegtreeSpec SegtreeModel SegtreeProof PartialOps SegtreeChkModel.

Section Proof.
  Context {S : Type} (e : S) (op : S -> S -> S) (L : monoid_laws e op).
  Context (good : S -> Prop) (opc : S -> S -> res S) (A : agrees good op opc).
  Implicit Types (d a : list S).
  Local Notation P := (mprod e op).
  Local Notation node := (node op).

  (** The leaves of [d] are [a], padded with identities. *)
  Record Leaves d (size : nat) a : Prop := {
    lv_len : length d = 2 * size;
    lv_le : length a <= size;
    lv_leaf : forall i, i < length a -> d !! (size + i) = a !! i;
    lv_pad : forall i, length a <= i < size -> d !! (size + i) = Some e }.

  Lemma leaves_prod d size a l r : Leaves d size a -> l <= r <= size ->
    exists l' r', l' <= r' <= length a /\ P (slice d (size + l) (size + r)) = P (slice a l' r').
  Proof.
    intros V H.
    assert (forall l r, l <= r <= length a -> slice d (size + l) (size + r) = slice a l r) as Hin.
    { intros l1 r1 H1. symmetry. apply slice_shift. intros i Hi. symmetry. apply (lv_leaf _ _ _ V). lia. }
    assert (forall l r, length a <= l <= r -> r <= size -> P (slice d (size + l) (size + r)) = e) as Hpad.
    { intros l1 r1 H1 H2. transitivity (P (replicate (r1 - l1) e)); [f_equal|apply (mprod_replicate_e _ _ L)].
      apply list_eq. intros i. destruct (decide (i < r1 - l1)) as [Hi|Hi].
      - rewrite slice_lookup by lia. rewrite lookup_replicate_2 by lia. rewrite <- Nat.add_assoc. apply (lv_pad _ _ _ V). lia.
      - unfold slice. rewrite lookup_take_ge by lia. symmetry. apply lookup_ge_None_2. rewrite replicate_length. lia. }
    destruct (decide (r <= length a)) as [Hr|Hr].
    - exists l, r. split; [lia|]. rewrite Hin by lia. reflexivity.
    - destruct (decide (l <= length a)) as [Hl|Hl].
      + exists l, (length a). split; [lia|]. rewrite <- (slice_app d _ (size + length a)) by lia.
        rewrite (mprod_app _ _ L), (Hpad (length a) r), (ml_idr _ _ L), Hin by lia. reflexivity.
      + exists 0, 0. split; [lia|]. rewrite Hpad by lia. reflexivity.
  Qed.

  Lemma leaves_good d size a l r : ranges_good e op good a -> Leaves d size a -> l <= r <= size ->
    good (P (slice d (size + l) (size + r))).
  Proof. intros G V H. destruct (leaves_prod d size a l r V H) as (l' & r' & H' & ->). apply G. exact H'. Qed.

  Lemma leaves_good' d size a x y : ranges_good e op good a -> Leaves d size a -> size <= x <= y -> y <= 2 * size ->
    good (P (slice d x y)).
  Proof.
    intros G V H1 H2. replace x with (size + (x - size)) by lia. replace y with (size + (y - size)) by lia.
    apply (leaves_good d size a); auto; lia.
  Qed.

  Lemma inv_leaves t a : Inv e op t a -> Leaves (sg_d t) (sg_size t) a.
  Proof.
    intros I. split.
    - apply (inv_len _ _ _ _ I).
    - rewrite <- (inv_n _ _ _ _ I). apply (inv_le _ _ _ _ I).
    - rewrite <- (inv_n _ _ _ _ I). apply (inv_leaf _ _ _ _ I).
    - rewrite <- (inv_n _ _ _ _ I). apply (inv_pad _ _ _ _ I).
  Qed.

  Lemma node_prod_above d size lo : 0 < size -> length d = 2 * size -> (forall k, lo <= k < size -> node d k) ->
    forall h k, lo <= k -> size <= k * 2 ^ h -> (k + 1) * 2 ^ h <= 2 * size ->
      d !! k = Some (P (slice d (k * 2 ^ h) ((k + 1) * 2 ^ h))).
  Proof.
    intros Hsz Hlen Hn. induction h as [|h IH]; intros k Hk Hlo Hhi.
    - rewrite Nat.pow_0_r, !Nat.mul_1_r in *. destruct (lookup_lt_is_Some_2 d k) as [x Hx]; [lia|].
      rewrite (slice_single d k x Hx), (mprod_single _ _ L). exact Hx.
    - rewrite Nat.pow_succ_r' in *. pose proof (pow2_pos h) as Hp.
      destruct (Hn k) as (x & y & H1 & H2 & H3); [nia|].
      rewrite IH in H1 by nia. rewrite IH in H2 by nia. rewrite H3. f_equal.
      injection H1 as <-. injection H2 as <-. rewrite <- (mprod_app _ _ L), slice_app by nia. f_equal. f_equal; nia.
  Qed.

  Lemma level size log k : size = 2 ^ log -> 1 <= k < size -> exists h, size <= k * 2 ^ Datatypes.S h /\ (k + 1) * 2 ^ Datatypes.S h <= 2 * size.
  Proof.
    intros -> Hk. destruct (Nat.log2_spec k) as [H1 H2]; [lia|].
    assert (Nat.log2 k < log) as Hl by (apply (Nat.pow_lt_mono_r_iff 2); lia).
    exists (log - Nat.log2 k - 1). replace (Datatypes.S (log - Nat.log2 k - 1)) with (log - Nat.log2 k) by lia.
    assert (2 ^ log = 2 ^ Nat.log2 k * 2 ^ (log - Nat.log2 k)) as E by (rewrite <- Nat.pow_add_r; f_equal; lia).
    rewrite E. rewrite Nat.pow_succ_r' in H2. pose proof (pow2_pos (log - Nat.log2 k)). nia.
  Qed.

  Lemma update_same d size log a k : size = 2 ^ log -> ranges_good e op good a -> Leaves d size a -> 1 <= k < size ->
    (forall j, k < j < size -> node d j) -> stc_update opc d k = st_update op d k.
  Proof.
    intros Hs G V Hk Hn. unfold stc_update, st_update. pose proof (pow2_pos log) as Hp.
    destruct (level size log k Hs Hk) as (h & H1 & H2). rewrite Nat.pow_succ_r' in H1, H2. pose proof (pow2_pos h) as Hph.
    pose proof (node_prod_above d size (k + 1) ltac:(lia) (lv_len _ _ _ V) ltac:(intros j Hj; apply Hn; lia) h) as Hnode.
    rewrite (vget_ok _ _ _ (Hnode (2 * k) ltac:(lia) ltac:(nia) ltac:(nia))).
    rewrite (vget_ok _ _ _ (Hnode (2 * k + 1) ltac:(lia) ltac:(nia) ltac:(nia))). cbn [mbind res_bind].
    rewrite A; [reflexivity|]. rewrite <- (mprod_app _ _ L), slice_app by nia. apply (leaves_good' d size a); auto; nia.
  Qed.

  Lemma st_update_inv d k d' : st_update op d k = Ok d' -> length d' = length d /\ node d' k /\ (forall j, j <> k -> d' !! j = d !! j) \/ k = 0.
  Proof.
    intros H. destruct (decide (k = 0)) as [->|Hk]; [right; reflexivity|left]. unfold st_update in H.
    apply rbind_ok_inv in H as (x & Hx & H). apply rbind_ok_inv in H as (y & Hy & H).
    assert (2 * k + 1 < length d) as Hl by (apply vget_ok_iff in Hy; apply lookup_lt_Some in Hy; exact Hy).
    destruct (st_update_ok op d k) as (d1 & E & H1 & H2 & H3); [lia|exact Hl|].
    unfold st_update in E. rewrite Hx, Hy in E. cbn [mbind res_bind] in E. rewrite H in E. injection E as <-. auto.
  Qed.

  Lemma from_same v : (Z.of_nat (length v) < 2 ^ 32)%Z -> ranges_good e op good v -> stc_from e opc v = st_from e op v.
  Proof.
    intros Hlen G. unfold stc_from, st_from. rewrite Z.mod_small by lia.
    destruct (ceil_lg_pow (Z.of_nat (length v))) as (k & Hk & Hk32 & Hle); [lia|]. rewrite Hk. cbn [mbind res_bind].
    set (log := Z.to_nat k). set (size := 2 ^ log).
    assert (length v <= size) as Hvs.
    { unfold size, log. apply Nat2Z.inj_le. rewrite Nat2Z.inj_pow, Z2Nat.id by lia. exact Hle. }
    assert (0 < size) as Hsz by apply pow2_pos.
    destruct (copy_into_ok (replicate (2 * size) e) size v) as (d & -> & Hd & Hleaf & Hout).
    { rewrite replicate_length. lia. }
    rewrite replicate_length in Hd. cbn [mbind res_bind]. unfold range.
    rewrite (rfor_rev_range_ext (fun i d' => length d' = 2 * size /\ (forall j, size <= j -> d' !! j = d !! j) /\
                   (forall j, i <= j < size -> node d' j)) 1 size (fun i d => st_update op d i) (fun i d => stc_update opc d i) d).
    - reflexivity.
    - lia.
    - split; [exact Hd|]. split; [auto|]. intros j Hj. lia.
    - intros i s Hi (Hs & Hhi & Hn). split.
      + apply (update_same s size log v); auto; [|intros j Hj; apply Hn; lia]. split; [exact Hs|exact Hvs| |].
        * intros j Hj. rewrite Hhi by lia. apply Hleaf. exact Hj.
        * intros j Hj. rewrite Hhi by lia. rewrite Hout by lia. apply lookup_replicate_2. lia.
      + intros s' Hu. destruct (st_update_inv s i s' Hu) as [(Hls & Hns & Hfr)| ->]; [|lia].
        split; [lia|]. split.
        * intros j Hj. rewrite Hfr by lia. apply Hhi. exact Hj.
        * intros j Hj. destruct (decide (j = i)) as [->|Hne]; [exact Hns|].
          apply (node_frame op s); [apply Hn; lia|apply Hfr; lia|apply Hfr; lia|apply Hfr; lia].
  Qed.

  Section Reads.
    Context (t : segtree S) (a : list S) (I : Inv e op t a) (G : ranges_good e op good a).
    Local Notation n := (sg_n t).
    Local Notation size := (sg_size t).
    Local Notation d := (sg_d t).

    Lemma good_slice x y : size <= x <= y -> y <= 2 * size -> good (P (slice d x y)).
    Proof. intros H1 H2. apply (leaves_good' d size a); auto. apply inv_leaves. exact I. Qed.

    Lemma set_same p x : ranges_good e op good (<[p := x]> a) -> stc_set opc t p x = st_set op t p x.
    Proof.
      intros G'. unfold stc_set, st_set. destruct (Nat.ltb_spec p n) as [Hp|Hp]; [|reflexivity].
      cbn [rassert mbind res_bind]. pose proof (size_pos e op t a I) as Hsz. pose proof (inv_le _ _ _ _ I) as Hns.
      pose proof (inv_len _ _ _ _ I) as Hlen. pose proof (inv_size _ _ _ _ I) as Hsize.
      rewrite vset_ok by lia. cbn [mbind res_bind].
      set (q := p + size). set (d0 := <[q:=x]> d).
      assert (Hleaves : forall s, length s = 2 * size -> (forall j, size <= j -> s !! j = d0 !! j) -> Leaves s size (<[p := x]> a)).
      { intros s Hs Hhi. pose proof (inv_n _ _ _ _ I) as En. split; rewrite ?insert_length; try lia.
        - intros i Hi. rewrite Hhi by lia. unfold d0. destruct (decide (i = p)) as [->|Hne].
          + replace (size + p) with q by (unfold q; lia). rewrite !list_lookup_insert by lia. reflexivity.
          + rewrite !list_lookup_insert_ne by (unfold q; lia). apply (inv_leaf _ _ _ _ I). lia.
        - intros i Hi. rewrite Hhi by lia. unfold d0. rewrite list_lookup_insert_ne by (unfold q; lia).
          apply (inv_pad _ _ _ _ I). lia. }
      unfold range_incl.
      rewrite (rfor_range_ext (fun i d' => length d' = 2 * size /\ (forall j, size <= j -> d' !! j = d0 !! j) /\
           (forall k, 1 <= k < size -> (forall j, i <= j -> k <> q / 2 ^ j) -> node d' k))
        1 (Datatypes.S (sg_log t)) (fun i d => st_update op d (q / 2 ^ i)) (fun i d => stc_update opc d (q / 2 ^ i)) d0).
      - reflexivity.
      - lia.
      - split; [unfold d0; rewrite insert_length; exact Hlen|]. split; [auto|].
        intros k Hk Hoff. apply (node_frame op d); [apply (inv_node _ _ _ _ I); exact Hk| | |];
          unfold d0; apply list_lookup_insert_ne.
        + unfold q. lia.
        + intros E. apply (Hoff 1); [lia|]. rewrite E. change (2 ^ 1) with 2. rewrite Nat.mul_comm, Nat.div_mul; lia.
        + intros E. apply (Hoff 1); [lia|]. rewrite E. change (2 ^ 1) with 2. apply (Nat.div_unique _ _ _ 1); lia.
      - intros i s Hi (Hs & Hhi & Hn).
        assert (1 <= q / 2 ^ i < size) as Hk.
        { pose proof (pow2_pos i). rewrite Hsize. split.
          - apply Nat.div_le_lower_bound; [lia|]. rewrite Nat.mul_1_r.
            transitivity (sg_size t); [rewrite Hsize; apply Nat.pow_le_mono_r; lia|unfold q; lia].
          - apply Nat.div_lt_upper_bound; [lia|]. rewrite <- Hsize.
            assert (2 <= 2 ^ i) by (transitivity (2 ^ 1); [reflexivity|apply Nat.pow_le_mono_r; lia]). unfold q. nia. }
        split.
        + apply (update_same s size (sg_log t) (<[p := x]> a)); auto.
          intros k Hk'. apply Hn; [lia|]. intros j Hj E. subst k.
          assert (q / 2 ^ j <= q / 2 ^ i) by (apply Nat.div_le_compat_l; split; [apply pow2_pos|apply Nat.pow_le_mono_r; lia]). lia.
        + intros s' Hu. destruct (st_update_inv s _ s' Hu) as [(Hls & Hns' & Hfr)| ?]; [|lia].
          split; [lia|]. split.
          * intros j Hj. rewrite Hfr by lia. apply Hhi. exact Hj.
          * intros k Hk' Hoff. destruct (decide (k = q / 2 ^ i)) as [->|Hne]; [exact Hns'|].
            assert (k <> q / 2 ^ i / 2) as Hpar.
            { rewrite Nat.div_div by (pose proof (pow2_pos i); lia). rewrite Nat.mul_comm, <- Nat.pow_succ_r'. apply Hoff. lia. }
            apply (node_frame op s).
            -- apply Hn; [exact Hk'|]. intros j Hj. destruct (decide (j = i)) as [->|]; [exact Hne|]. apply Hoff. lia.
            -- apply Hfr. exact Hne.
            -- apply Hfr. intros E. apply Hpar. rewrite <- E. rewrite Nat.mul_comm, Nat.div_mul; lia.
            -- apply Hfr. intros E. apply Hpar. rewrite <- E. apply (Nat.div_unique _ _ _ 1); lia.
    Qed.

    (** Node l' of height h. *)
    Lemma node_at h k : size <= k * 2 ^ h -> (k + 1) * 2 ^ h <= 2 * size ->
      vget d k = Ok (P (slice d (k * 2 ^ h) ((k + 1) * 2 ^ h))).
    Proof. intros H1 H2. apply vget_ok. apply (node_prod e op L t a I); assumption. Qed.

    Lemma prod_same l r : l <= r <= n -> stc_prod e opc t l r = st_prod e op t l r.
    Proof.
      intros Hlr. unfold stc_prod, st_prod. pose proof (size_pos e op t a I) as Hsz. pose proof (inv_le _ _ _ _ I) as Hns.
      destruct (Nat.leb_spec l r); [|lia]. destruct (Nat.leb_spec r n); [|lia]. cbn [andb rassert mbind res_bind].
      set (J := fun '(l', r', sml, smr) => exists h, size + l <= l' * 2 ^ h /\ l' <= r' /\ r' * 2 ^ h <= size + r /\
           sml = P (slice d (size + l) (l' * 2 ^ h)) /\ smr = P (slice d (r' * 2 ^ h) (size + r))).
      assert (J0 : J (l + size, r + size, e, e)).
      { exists 0. rewrite Nat.pow_0_r, !Nat.mul_1_r. split; [lia|]. split; [lia|]. split; [lia|]. rewrite !slice_nil by lia. auto. }
      assert (Hstep : forall s, J s -> stc_prod_step opc d s = st_prod_step op d s /\ (forall s', st_prod_step op d s = Ok (inl s') -> J s') /\
        (forall x y, st_prod_step op d s = Ok (inr (x, y)) -> exists m1 m2, size + l <= m1 /\ m1 = m2 /\ m2 <= size + r /\
           x = P (slice d (size + l) m1) /\ y = P (slice d m2 (size + r)))).
      { intros [[[l' r'] sml] smr] (h & H1 & H2 & H3 & -> & ->). unfold stc_prod_step, st_prod_step. pose proof (pow2_pos h) as Hph.
        destruct (Nat.ltb_spec l' r') as [Hlt|Hge].
        2:{ split; [reflexivity|]. split; [discriminate|]. intros x y E. injection E as <- <-.
            exists (l' * 2 ^ h), (r' * 2 ^ h). assert (l' = r') as -> by lia. auto. }
        assert (exists l1,
          (if Nat.odd l' then x ← vget d l'; y ← opc (P (slice d (size + l) (l' * 2 ^ h))) x; Ok (l' + 1, y) else Ok (l', P (slice d (size + l) (l' * 2 ^ h))))
             = Ok (l1, P (slice d (size + l) (l1 * 2 ^ h))) /\
          (if Nat.odd l' then x ← vget d l'; Ok (l' + 1, op (P (slice d (size + l) (l' * 2 ^ h))) x) else Ok (l', P (slice d (size + l) (l' * 2 ^ h))))
             = Ok (l1, P (slice d (size + l) (l1 * 2 ^ h))) /\
          Nat.even l1 = true /\ l' <= l1 <= r') as (l1 & -> & -> & He1 & Hl1).
        { destruct (Nat.odd l') eqn:Ho.
          - rewrite (node_at h l') by nia. cbn [mbind res_bind].
            assert (op (P (slice d (size + l) (l' * 2 ^ h))) (P (slice d (l' * 2 ^ h) ((l' + 1) * 2 ^ h))) = P (slice d (size + l) ((l' + 1) * 2 ^ h))) as E.
            { rewrite <- (mprod_app _ _ L), slice_app by nia. reflexivity. }
            rewrite A by (rewrite E; apply good_slice; nia). cbn [mbind res_bind]. rewrite E.
            exists (l' + 1). split; [reflexivity|]. split; [reflexivity|]. split; [rewrite Nat.add_1_r, Nat.even_succ; exact Ho|lia].
          - exists l'. split; [reflexivity|]. split; [reflexivity|]. split; [rewrite <- Nat.negb_odd, Ho; reflexivity|lia]. }
        cbn [mbind res_bind].
        assert (exists r1,
          (if Nat.odd r' then r2 ← nsub r' 1; x ← vget d r2; y ← opc x (P (slice d (r' * 2 ^ h) (size + r))); Ok (r2, y) else Ok (r', P (slice d (r' * 2 ^ h) (size + r))))
             = Ok (r1, P (slice d (r1 * 2 ^ h) (size + r))) /\
          (if Nat.odd r' then r2 ← nsub r' 1; x ← vget d r2; Ok (r2, op x (P (slice d (r' * 2 ^ h) (size + r)))) else Ok (r', P (slice d (r' * 2 ^ h) (size + r))))
             = Ok (r1, P (slice d (r1 * 2 ^ h) (size + r))) /\
          Nat.even r1 = true /\ l1 <= r1 <= r') as (r1 & Er1 & Er2 & He2 & Hr1).
        { destruct (Nat.odd r') eqn:Ho.
          - assert (l1 < r') as Hlr1.
            { destruct (decide (l1 = r')) as [->|]; [|lia]. rewrite <- Nat.negb_odd, Ho in He1. discriminate. }
            rewrite nsub_ok by lia. cbn [mbind res_bind]. rewrite (node_at h (r' - 1)) by nia. cbn [mbind res_bind].
            replace ((r' - 1 + 1) * 2 ^ h) with (r' * 2 ^ h) by nia.
            assert (op (P (slice d ((r' - 1) * 2 ^ h) (r' * 2 ^ h))) (P (slice d (r' * 2 ^ h) (size + r))) = P (slice d ((r' - 1) * 2 ^ h) (size + r))) as E.
            { rewrite <- (mprod_app _ _ L), slice_app by nia. reflexivity. }
            rewrite A by (rewrite E; apply good_slice; nia). cbn [mbind res_bind]. rewrite E.
            exists (r' - 1). split; [reflexivity|]. split; [reflexivity|]. split; [|lia].
            destruct r' as [|r'']; [lia|]. rewrite Nat.odd_succ in Ho. replace (Datatypes.S r'' - 1) with r'' by lia. exact Ho.
          - exists r'. split; [reflexivity|]. split; [reflexivity|]. split; [rewrite <- Nat.negb_odd, Ho; reflexivity|lia]. }
        cbv zeta beta in Er1, Er2. rewrite Er1, Er2. cbn [mbind res_bind]. split; [reflexivity|]. split; [|discriminate].
        intros s' E. injection E as <-.
        apply Nat.even_spec in He1, He2. destruct He1 as [l2 ->]. destruct He2 as [r2 ->].
        assert (2 * l2 / 2 = l2) as El by (rewrite Nat.mul_comm; apply Nat.div_mul; lia).
        assert (2 * r2 / 2 = r2) as Er by (rewrite Nat.mul_comm; apply Nat.div_mul; lia).
        exists (Datatypes.S h). rewrite El, Er, Nat.pow_succ_r'.
        replace (l2 * (2 * 2 ^ h)) with (2 * l2 * 2 ^ h) by nia. replace (r2 * (2 * 2 ^ h)) with (2 * r2 * 2 ^ h) by nia.
        split; [nia|]. split; [lia|]. split; [nia|]. auto. }
      rewrite (rloop_ext J (st_prod_step op d) (stc_prod_step opc d)); [|intros s Hs; destruct (Hstep s Hs) as (H1 & H2 & _); auto|exact J0].
      (* the final call of the operation *)
      destruct (rloop (r + size + 1) (st_prod_step op d) (l + size, r + size, e, e)) as [[sml smr]| |] eqn:Er; [|reflexivity|reflexivity].
      cbn [mbind res_bind].
      assert (Hfin : forall fuel s x y, J s -> rloop fuel (st_prod_step op d) s = Ok (x, y) ->
        exists m1 m2, size + l <= m1 /\ m1 = m2 /\ m2 <= size + r /\ x = P (slice d (size + l) m1) /\ y = P (slice d m2 (size + r))).
      { induction fuel as [|fuel IH]; intros s x y Hs E; [discriminate|]. cbn [rloop] in E.
        destruct (Hstep s Hs) as (_ & H2 & H3). destruct (st_prod_step op d s) as [[s'|[x' y']]| |]; cbn in E; try discriminate.
        - apply (IH s'); [apply H2; reflexivity|exact E].
        - injection E as <- <-. apply H3. reflexivity. }
      destruct (Hfin _ _ _ _ J0 Er) as (m1 & m2 & H1 & <- & H3 & -> & ->).
      apply A. rewrite <- (mprod_app _ _ L), slice_app by lia. apply good_slice; lia.
    Qed.

    (** ** max_right *)
    Lemma descend_right_same f l h sm l0 :
      size <= l * 2 ^ h -> (l + 1) * 2 ^ h <= 2 * size -> size + l0 <= l * 2 ^ h ->
      sm = P (slice d (size + l0) (l * 2 ^ h)) ->
      stc_descend_right opc d size f l sm = st_descend_right op d size f l sm.
    Proof.
      intros Hlo Hhi Hl0l Hsm. unfold stc_descend_right, st_descend_right. f_equal.
      apply (rloop_ext (fun '(l, sm) => exists h, size <= l * 2 ^ h /\ (l + 1) * 2 ^ h <= 2 * size /\ size + l0 <= l * 2 ^ h /\
           sm = P (slice d (size + l0) (l * 2 ^ h)))).
      2:{ exists h. auto. }
      clear l h sm Hlo Hhi Hl0l Hsm. intros [l sm] (h & H1 & H2 & H3 & ->).
      destruct (Nat.ltb_spec l size) as [Hl|Hl]; [|split; [reflexivity|discriminate]].
      destruct h as [|h]; [rewrite Nat.pow_0_r, Nat.mul_1_r in H1; lia|].
      pose proof (pow2_pos h) as Hph. rewrite Nat.pow_succ_r' in *.
      rewrite (node_at h (2 * l)) by nia. cbn [mbind res_bind].
      replace (l * (2 * 2 ^ h)) with (2 * l * 2 ^ h) in * by nia.
      assert (op (P (slice d (size + l0) (2 * l * 2 ^ h))) (P (slice d (2 * l * 2 ^ h) ((2 * l + 1) * 2 ^ h))) = P (slice d (size + l0) ((2 * l + 1) * 2 ^ h))) as E.
      { rewrite <- (mprod_app _ _ L), slice_app by nia. reflexivity. }
      rewrite A by (rewrite E; apply good_slice; nia). cbn [mbind res_bind]. rewrite E.
      split; [reflexivity|]. destruct (f _); intros s' Es; injection Es as <-.
      - exists h. split; [nia|]. split; [nia|]. split; [nia|reflexivity].
      - exists h. split; [nia|]. split; [nia|]. split; [nia|reflexivity].
    Qed.

    Lemma max_right_same l0 f : stc_max_right e opc t l0 f = st_max_right e op t l0 f.
    Proof.
      unfold stc_max_right, st_max_right. pose proof (size_pos e op t a I) as Hsz. pose proof (inv_le _ _ _ _ I) as Hns.
      pose proof (inv_size _ _ _ _ I) as Hsize.
      destruct (Nat.leb_spec l0 n); [|reflexivity]. destruct (f e); [|reflexivity]. cbn [rassert mbind res_bind].
      destruct (Nat.eqb_spec l0 n) as [->|Hne]; [reflexivity|].
      apply (rloop_ext (fun '(l, sm) => exists h, l * 2 ^ h < 2 * size /\ size + l0 <= l * 2 ^ h /\ sm = P (slice d (size + l0) (l * 2 ^ h)))).
      2:{ exists 0. rewrite Nat.pow_0_r, Nat.mul_1_r. split; [lia|]. split; [lia|]. rewrite slice_nil by lia. reflexivity. }
      intros [l sm] (h & H1 & H3 & ->). unfold stc_max_right_step, st_max_right_step.
      assert (0 < l) as Hl by nia.
      destruct (strip_even_spec l Hl) as (k & l' & -> & Hll & Hodd). cbn [mbind res_bind].
      assert (l * 2 ^ h = l' * 2 ^ (k + h)) as E by (rewrite Nat.pow_add_r; nia).
      rewrite E in *. clear E. generalize dependent (k + h). clear k h l Hl Hll.
      intros h H1 H3. pose proof (pow2_pos h) as Hph.
      assert (0 < l') as Hl' by nia.
      assert (exists q, 2 * size = q * 2 ^ h) as [q Hq].
      { assert (h < sg_log t + 1) as Hh.
        { apply (Nat.pow_lt_mono_r_iff 2); [lia|]. rewrite Nat.add_1_r, Nat.pow_succ_r', <- Hsize. nia. }
        exists (2 ^ (sg_log t + 1 - h)). rewrite <- Nat.pow_add_r.
        replace (sg_log t + 1 - h + h) with (Datatypes.S (sg_log t)) by lia.
        rewrite Nat.pow_succ_r', <- Hsize. reflexivity. }
      assert ((l' + 1) * 2 ^ h <= 2 * size) as Hhi.
      { assert (l' < q) by (apply (Nat.mul_lt_mono_pos_r (2 ^ h)); lia).
        rewrite Hq. apply Nat.mul_le_mono_r. lia. }
      rewrite (node_at h l') by nia. cbn [mbind res_bind].
      assert (op (P (slice d (size + l0) (l' * 2 ^ h))) (P (slice d (l' * 2 ^ h) ((l' + 1) * 2 ^ h))) = P (slice d (size + l0) ((l' + 1) * 2 ^ h))) as E.
      { rewrite <- (mprod_app _ _ L), slice_app by nia. reflexivity. }
      rewrite A by (rewrite E; apply good_slice; nia). cbn [mbind res_bind]. rewrite E.
      try (rewrite A by (rewrite E; apply good_slice; nia); cbn [mbind res_bind]; rewrite E).
      rewrite (descend_right_same f l' h _ l0) by (nia || reflexivity). split; [reflexivity|].
      destruct (f _); cbn [negb].
      - destruct (Nat.eqb_spec (lowbit (l' + 1)) (l' + 1)) as [Hp|Hnp]; cbn [negb]; [discriminate|].
        intros s' Es. injection Es as <-. exists h. split; [|split; [nia|reflexivity]].
        assert ((l' + 1) * 2 ^ h <> 2 * size); [|lia]. intros E2. apply Hnp.
        assert (h <= Datatypes.S (sg_log t)) as Hh.
        { apply (Nat.pow_le_mono_r_iff 2); [lia|]. rewrite Nat.pow_succ_r', <- Hsize. nia. }
        assert (l' + 1 = 2 ^ (Datatypes.S (sg_log t) - h)) as ->; [|apply lowbit_pow2].
        apply (Nat.mul_cancel_r _ _ (2 ^ h)); [lia|]. rewrite E2, <- Nat.pow_add_r.
        replace (Datatypes.S (sg_log t) - h + h) with (Datatypes.S (sg_log t)) by lia.
        rewrite Nat.pow_succ_r', <- Hsize. reflexivity.
      - destruct (st_descend_right _ _ _ _ _ _); cbn; discriminate.
    Qed.

    (** ** min_left *)
    Lemma descend_left_same f r h sm r0 :
      size <= r * 2 ^ h -> (r + 1) * 2 ^ h <= size + r0 -> r0 <= size ->
      sm = P (slice d ((r + 1) * 2 ^ h) (size + r0)) ->
      stc_descend_left opc d size f r sm = st_descend_left op d size f r sm.
    Proof.
      intros Hlo Hhi Hr0 Hsm. unfold stc_descend_left, st_descend_left. f_equal.
      apply (rloop_ext (fun '(r, sm) => exists h, size <= r * 2 ^ h /\ (r + 1) * 2 ^ h <= size + r0 /\ sm = P (slice d ((r + 1) * 2 ^ h) (size + r0)))).
      2:{ exists h. auto. }
      clear r h sm Hlo Hhi Hsm. intros [r sm] (h & H1 & H2 & ->).
      destruct (Nat.ltb_spec r size) as [Hl|Hl]; [|split; [reflexivity|discriminate]].
      destruct h as [|h]; [rewrite Nat.pow_0_r, Nat.mul_1_r in H1; lia|].
      pose proof (pow2_pos h) as Hph. rewrite Nat.pow_succ_r' in *.
      rewrite (node_at h (2 * r + 1)) by nia. cbn [mbind res_bind].
      replace ((r + 1) * (2 * 2 ^ h)) with ((2 * r + 1 + 1) * 2 ^ h) in * by nia.
      assert (op (P (slice d ((2 * r + 1) * 2 ^ h) ((2 * r + 1 + 1) * 2 ^ h))) (P (slice d ((2 * r + 1 + 1) * 2 ^ h) (size + r0))) = P (slice d ((2 * r + 1) * 2 ^ h) (size + r0))) as E.
      { rewrite <- (mprod_app _ _ L), slice_app by nia. reflexivity. }
      rewrite A by (rewrite E; apply good_slice; nia). cbn [mbind res_bind]. rewrite E.
      split; [reflexivity|]. destruct (f _).
      - rewrite nsub_ok by lia. cbn [mbind res_bind]. intros s' Es; injection Es as <-. exists h.
        replace (2 * r + 1 - 1 + 1) with (2 * r + 1) by lia. split; [nia|]. split; [nia|reflexivity].
      - intros s' Es; injection Es as <-. exists h. split; [nia|]. split; [nia|reflexivity].
    Qed.

    Lemma min_left_same r0 f : stc_min_left e opc t r0 f = st_min_left e op t r0 f.
    Proof.
      unfold stc_min_left, st_min_left. pose proof (size_pos e op t a I) as Hsz. pose proof (inv_le _ _ _ _ I) as Hns.
      pose proof (inv_size _ _ _ _ I) as Hsize.
      destruct (Nat.leb_spec r0 n); [|reflexivity]. destruct (f e); [|reflexivity]. cbn [rassert mbind res_bind].
      destruct (Nat.eqb_spec r0 0) as [->|Hne]; [reflexivity|].
      apply (rloop_ext (fun '(r, sm) => exists h, size < r * 2 ^ h /\ h <= sg_log t /\ r * 2 ^ h <= size + r0 /\ sm = P (slice d (r * 2 ^ h) (size + r0)))).
      2:{ exists 0. rewrite Nat.pow_0_r, Nat.mul_1_r. split; [lia|]. split; [lia|]. split; [lia|]. rewrite slice_nil by lia. reflexivity. }
      intros [r sm] (h & H1 & Hh & H3 & ->). unfold stc_min_left_step, st_min_left_step.
      assert (1 < r) as Hr.
      { assert (2 ^ h <= size) by (rewrite Hsize; apply Nat.pow_le_mono_r; lia). nia. }
      rewrite nsub_ok by lia. cbn [mbind res_bind].
      destruct (strip_odd_spec (r - 1) ltac:(lia)) as (k & r' & -> & Hrr & Hr' & Hev). cbn [mbind res_bind].
      replace (r - 1 + 1) with r in Hrr by lia.
      assert (r * 2 ^ h = (r' + 1) * 2 ^ (k + h)) as E by (rewrite Nat.pow_add_r; nia).
      rewrite E in *. clear E. generalize dependent (k + h). clear k h Hh r Hr Hrr.
      intros h H1 H3. pose proof (pow2_pos h) as Hph.
      assert (h <= sg_log t) as Hh.
      { apply (Nat.pow_le_mono_r_iff 2); [lia|]. rewrite <- Hsize. nia. }
      assert (size = 2 ^ (sg_log t - h) * 2 ^ h) as Hq.
      { rewrite <- Nat.pow_add_r. replace (sg_log t - h + h) with (sg_log t) by lia. exact Hsize. }
      assert (size <= r' * 2 ^ h) as Hlo.
      { assert (2 ^ (sg_log t - h) < r' + 1) by (apply (Nat.mul_lt_mono_pos_r (2 ^ h)); lia).
        rewrite Hq. apply Nat.mul_le_mono_r. lia. }
      rewrite (node_at h r') by nia. cbn [mbind res_bind].
      assert (op (P (slice d (r' * 2 ^ h) ((r' + 1) * 2 ^ h))) (P (slice d ((r' + 1) * 2 ^ h) (size + r0))) = P (slice d (r' * 2 ^ h) (size + r0))) as E.
      { rewrite <- (mprod_app _ _ L), slice_app by nia. reflexivity. }
      rewrite A by (rewrite E; apply good_slice; nia). cbn [mbind res_bind]. rewrite E.
      try (rewrite A by (rewrite E; apply good_slice; nia); cbn [mbind res_bind]; rewrite E).
      rewrite (descend_left_same f r' h _ r0) by (nia || reflexivity). split; [reflexivity|].
      destruct (f _); cbn [negb].
      - destruct (Nat.eqb_spec (lowbit r') r') as [Hp|Hnp]; cbn [negb]; [discriminate|].
        intros s' Es. injection Es as <-. exists h. split; [|split; [lia|split; [nia|reflexivity]]].
        assert (r' * 2 ^ h <> size); [|lia]. intros E2. apply Hnp. rewrite Hq in E2. apply Nat.mul_cancel_r in E2; [|lia].
        rewrite E2. apply lowbit_pow2.
      - destruct (st_descend_left _ _ _ _ _ _); cbn; discriminate.
    Qed.
  End Reads.

  Lemma step_same t a o : Inv e op t a -> ranges_good e op good a ->
    (forall a' out, sg_spec_step e op a o = Ok (a', out) -> ranges_good e op good a') ->
    stc_step e opc t o = st_step e op t o.
  Proof.
    intros I G G'. destruct o as [p x|p|l r|]; cbn [stc_step st_step]; try reflexivity.
    - destruct (decide (p < sg_n t)) as [Hp|Hp].
      + rewrite (set_same t a I); [reflexivity|]. apply (G' _ SgUnit). cbn [sg_spec_step].
        rewrite <- (inv_n _ _ _ _ I). destruct (Nat.ltb_spec p (sg_n t)); [reflexivity|lia].
      + rewrite (set_panic op t p x) by lia. unfold stc_set. destruct (Nat.ltb_spec p (sg_n t)); [lia|reflexivity].
    - destruct (decide (l <= r <= sg_n t)) as [H|H].
      + rewrite (prod_same t a I G) by exact H. reflexivity.
      + rewrite (prod_panic e op t l r) by exact H. unfold stc_prod.
        destruct (Nat.leb_spec l r); [|reflexivity]. destruct (Nat.leb_spec r (sg_n t)); [lia|reflexivity].
  Qed.

  Lemma run_same ops t a : Inv e op t a -> always (sg_spec_step e op) (ranges_good e op good) a ops ->
    run (stc_step e opc) t ops = run (st_step e op) t ops.
  Proof.
    intros I H. apply (run_ext _ _ (sg_spec_step e op) (ranges_good e op good) (Inv e op)) with (a := a); [|exact I|exact H].
    intros t1 a1 o I1 G1 G'. split; [apply (step_same t1 a1); assumption|]. apply (step_refines e op L). exact I1.
  Qed.
End Proof.

(** ** Exactly when the tree panics *)
Section Exact.
  Context {S : Type} (e : S) (op : S -> S -> S) (L : monoid_laws e op).
  Context (fits : S -> bool) (opc : S -> S -> res S) (X : exact fits op opc).
  Local Notation P := (mprod e op).
  Local Notation good := (fun x => fits x = true).
  Local Notation A := (exact_agrees fits op opc X).
  (** An array of values whose product fits has only ranges whose product fits. *)
  Context (T : forall a, Forall good a -> good (P a) -> ranges_good e op good a).

  (** Every node of the tree fits. *)
  Definition allfit (d : list S) : Prop := forall k x, 1 <= k -> d !! k = Some x -> good x.

  Lemma update_or_panic d k : allfit d ->
    (stc_update opc d k = st_update op d k \/ stc_update opc d k = Panic) /\ forall d', stc_update opc d k = Ok d' -> allfit d'.
  Proof.
    intros F. unfold stc_update, st_update. destruct (vget d (2 * k)) as [x| |]; cbn [mbind res_bind];
      [|split; [left; reflexivity|discriminate]..].
    destruct (vget d (2 * k + 1)) as [y| |]; cbn [mbind res_bind]; [|split; [left; reflexivity|discriminate]..].
    specialize (X x y). destruct (fits (op x y)) eqn:E; rewrite X; cbn [mbind res_bind]; [|split; [right; reflexivity|intros d' Hd; discriminate Hd]].
    split; [left; reflexivity|]. intros d' Hd. destruct (decide (k < length d)) as [Hk|Hk].
    - rewrite vset_ok in Hd by exact Hk. injection Hd as <-. intros j z Hj Hz.
      destruct (decide (j = k)) as [->|Hne].
      + rewrite list_lookup_insert in Hz by exact Hk. injection Hz as <-. exact E.
      + rewrite list_lookup_insert_ne in Hz by lia. apply (F j); assumption.
    - rewrite vset_panic in Hd by lia. discriminate.
  Qed.

  Lemma inv_root t a : Inv e op t a -> sg_d t !! 1 = Some (P a).
  Proof.
    intros I. pose proof (all_prod_ok e op L t a I) as H. unfold st_all_prod in H. apply vget_ok_iff in H. exact H.
  Qed.

  Lemma inv_allfit t a : Inv e op t a -> ranges_good e op good a -> allfit (sg_d t).
  Proof.
    intros I G k x Hk Hx. pose proof (size_pos e op t a I) as Hsz. pose proof (inv_len _ _ _ _ I) as Hlen.
    assert (k < 2 * sg_size t) as Hk2 by (apply lookup_lt_Some in Hx; lia).
    assert (exists h, sg_size t <= k * 2 ^ h /\ (k + 1) * 2 ^ h <= 2 * sg_size t) as (h & H1 & H2).
    { destruct (decide (k < sg_size t)) as [Hl|Hl].
      - destruct (level _ _ k (inv_size _ _ _ _ I) ltac:(lia)) as (h & H). exists (Datatypes.S h). exact H.
      - exists 0. rewrite Nat.pow_0_r. lia. }
    rewrite (node_prod e op L t a I h k H1 H2) in Hx. injection Hx as <-.
    apply (leaves_good' e op L good (sg_d t) (sg_size t) a); auto; [exact (inv_leaves e op t a I)|pose proof (pow2_pos h); nia].
  Qed.

  Lemma from_panic v : (Z.of_nat (length v) < 2 ^ 32)%Z -> Forall good v -> good e -> fits (P v) = false -> stc_from e opc v = Panic.
  Proof.
    intros Hlen Hv He Hbad.
    destruct (st_from_inv e op v Hlen) as (t & Ht & I).
    assert ((stc_from e opc v = st_from e op v \/ stc_from e opc v = Panic) /\ forall t', stc_from e opc v = Ok t' -> allfit (sg_d t')) as [[E|E] F]; [|exfalso|exact E].
    { unfold stc_from, st_from. rewrite Z.mod_small by lia.
      destruct (ceil_lg_pow (Z.of_nat (length v))) as (k & Hk & Hk32 & Hle); [lia|]. rewrite Hk. cbn [mbind res_bind].
      set (log := Z.to_nat k). set (size := 2 ^ log).
      assert (length v <= size) as Hvs.
      { unfold size, log. apply Nat2Z.inj_le. rewrite Nat2Z.inj_pow, Z2Nat.id by lia. exact Hle. }
      destruct (copy_into_ok (replicate (2 * size) e) size v) as (d & -> & Hd & Hleaf & Hout).
      { rewrite replicate_length. lia. }
      rewrite replicate_length in Hd. cbn [mbind res_bind].
      destruct (rfor_or_panic allfit (rev (range 1 size)) (fun i d => st_update op d i) (fun i d => stc_update opc d i) d) as [[E|E] F].
      - intros j x Hj Hx. destruct (decide (size <= j < size + length v)) as [Hin|Hin].
        + replace j with (size + (j - size)) in Hx by lia. rewrite Hleaf in Hx by lia. rewrite Forall_lookup in Hv. apply (Hv _ _ Hx).
        + rewrite Hout in Hx by lia. apply lookup_replicate in Hx as [-> _]. exact He.
      - intros i s _ Fs. apply update_or_panic. exact Fs.
      - rewrite E in *. split; [left; reflexivity|]. intros t' Et.
        apply rbind_ok_inv in Et as (d' & Ed & Et). injection Et as <-. apply F. exact Ed.
      - rewrite E. split; [right; reflexivity|discriminate]. }
    rewrite E, Ht in F. specialize (F t eq_refl 1 _ ltac:(lia) (inv_root t v I)). congruence.
  Qed.

  Lemma set_panic_fits t a p x : Inv e op t a -> ranges_good e op good a -> p < length a -> good x -> fits (P (<[p := x]> a)) = false ->
    stc_set opc t p x = Panic.
  Proof.
    intros I G Hp Hx Hbad. pose proof (inv_n _ _ _ _ I) as En. pose proof (inv_le _ _ _ _ I) as Hns. pose proof (inv_len _ _ _ _ I) as Hlen.
    destruct (set_ok e op t a I p x ltac:(lia)) as (t' & Ht & I').
    assert ((stc_set opc t p x = st_set op t p x \/ stc_set opc t p x = Panic) /\ forall t', stc_set opc t p x = Ok t' -> allfit (sg_d t')) as [[E|E] F]; [|exfalso|exact E].
    { unfold stc_set, st_set. destruct (Nat.ltb_spec p (sg_n t)); [|lia]. cbn [rassert mbind res_bind].
      rewrite vset_ok by lia. cbn [mbind res_bind].
      destruct (rfor_or_panic allfit (range_incl 1 (sg_log t)) (fun i d => st_update op d ((p + sg_size t) / 2 ^ i))
                  (fun i d => stc_update opc d ((p + sg_size t) / 2 ^ i)) (<[p + sg_size t := x]> (sg_d t))) as [[E|E] F].
      - intros j z Hj Hz. destruct (decide (j = p + sg_size t)) as [->|Hne].
        + rewrite list_lookup_insert in Hz by lia. injection Hz as <-. exact Hx.
        + rewrite list_lookup_insert_ne in Hz by lia. apply (inv_allfit t a I G j z Hj Hz).
      - intros i s _ Fs. apply update_or_panic. exact Fs.
      - rewrite E in *. split; [left; reflexivity|]. intros t1 Et.
        apply rbind_ok_inv in Et as (d' & Ed & Et). injection Et as <-. apply F. exact Ed.
      - rewrite E. split; [right; reflexivity|discriminate]. }
    rewrite E, Ht in F. specialize (F t' eq_refl 1 _ ltac:(lia) (inv_root t' _ I')). congruence.
  Qed.
End Exact.

(** ** Over an operation that computes [op] or panics, the tree does what it does over [op] or panics *)
Section Weaker.
  Context {S : Type} (e : S) (op : S -> S -> S) (opc : S -> S -> res S) (O : or_panics op opc).

  Lemma le_update d k : le_res (stc_update opc d k) (st_update op d k).
  Proof. apply le_bind; [apply le_refl|]. intros x. apply le_bind; [apply le_refl|]. intros y. apply (le_opc op); [exact O|apply le_refl]. Qed.

  Lemma le_from v : le_res (stc_from e opc v) (st_from e op v).
  Proof.
    unfold stc_from, st_from. apply le_bind; [apply le_refl|]. intros k. apply le_bind; [apply le_refl|]. intros d.
    apply le_bind; [|intros; apply le_refl]. apply le_rfor. intros x s. apply le_update.
  Qed.

  Lemma le_set t p x : le_res (stc_set opc t p x) (st_set op t p x).
  Proof.
    unfold stc_set, st_set. apply le_bind; [apply le_refl|]. intros _. apply le_bind; [apply le_refl|]. intros d.
    apply le_bind; [|intros; apply le_refl]. apply le_rfor. intros i s. apply le_update.
  Qed.

  Lemma le_prod t l r : le_res (stc_prod e opc t l r) (st_prod e op t l r).
  Proof.
    unfold stc_prod, st_prod. apply le_bind; [apply le_refl|]. intros _. apply le_bind.
    - apply le_rloop. intros [[[l' r'] sml] smr]. unfold stc_prod_step, st_prod_step. destruct (l' <? r'); [|apply le_refl].
      apply le_bind.
      + destruct (Nat.odd l'); [|apply le_refl]. apply le_bind; [apply le_refl|]. intros x. apply (le_opc op); [exact O|apply le_refl].
      + intros [l1 s1]. apply le_bind; [|intros [r1 s2]; apply le_refl].
        destruct (Nat.odd r'); [|apply le_refl]. apply le_bind; [apply le_refl|]. intros r1. apply le_bind; [apply le_refl|]. intros x.
        apply (le_opc op); [exact O|apply le_refl].
    - intros [x y]. destruct (O x y) as [-> | ->]; [apply le_refl|right; reflexivity].
  Qed.

  Lemma le_max_right t l f : le_res (stc_max_right e opc t l f) (st_max_right e op t l f).
  Proof.
    unfold stc_max_right, st_max_right. apply le_bind; [apply le_refl|]. intros _. apply le_bind; [apply le_refl|]. intros _.
    destruct (l =? sg_n t); [apply le_refl|]. apply le_rloop. intros [l1 sm]. unfold stc_max_right_step, st_max_right_step.
    apply le_bind; [apply le_refl|]. intros l2. apply le_bind; [apply le_refl|]. intros x. apply (le_opc op); [exact O|].
    destruct (negb (f (op sm x))).
    - apply le_bind; [|intros; apply le_refl]. unfold stc_descend_right, st_descend_right. apply le_bind; [|intros; apply le_refl].
      apply le_rloop. intros [l3 sm3]. destruct (l3 <? sg_size t); [|apply le_refl]. apply le_bind; [apply le_refl|]. intros y.
      apply (le_opc op); [exact O|apply le_refl].
    - apply (le_opc op); [exact O|apply le_refl].
  Qed.

  Lemma le_min_left t r f : le_res (stc_min_left e opc t r f) (st_min_left e op t r f).
  Proof.
    unfold stc_min_left, st_min_left. apply le_bind; [apply le_refl|]. intros _. apply le_bind; [apply le_refl|]. intros _.
    destruct (r =? 0); [apply le_refl|]. apply le_rloop. intros [l1 sm]. unfold stc_min_left_step, st_min_left_step.
    apply le_bind; [apply le_refl|]. intros r1. apply le_bind; [apply le_refl|]. intros l2. apply le_bind; [apply le_refl|]. intros x.
    apply (le_opc op); [exact O|]. destruct (negb (f (op x sm))).
    - apply le_bind; [|intros; apply le_refl]. unfold stc_descend_left, st_descend_left. apply le_bind; [|intros; apply le_refl].
      apply le_rloop. intros [l3 sm3]. destruct (l3 <? sg_size t); [|apply le_refl]. apply le_bind; [apply le_refl|]. intros y.
      apply (le_opc op); [exact O|apply le_refl].
    - apply (le_opc op); [exact O|apply le_refl].
  Qed.

  Lemma le_step t o : le_res (stc_step e opc t o) (st_step e op t o).
  Proof.
    destruct o as [p x|p|l r|]; cbn [stc_step st_step]; try apply le_refl.
    - apply le_bind; [apply le_set|intros; apply le_refl].
    - apply le_bind; [apply le_prod|intros; apply le_refl].
  Qed.
End Weaker.
