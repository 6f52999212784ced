(** The lazy segment tree over functions that may panic, against the plain array: calls that meet only good values. *)
From Verif Require Import Prelude UtilModel UtilProof ArraySpec SegtreeModel SegtreeProof SegtreeChkModel LazySpec LazyModel LazyProof LazyTop
  PartialOps LazyChkModel LazyChkGood.

(** The maps that the range updates of a history applied to position [p], the newest first. *)
Definition maps_on {S F} (p : nat) (ops : list (lz_op S F)) : list F :=
  rev (flat_map (fun o => match o with LzApplyRange l r f => if (l <=? p) && (p <? r) then [f] else [] | _ => [] end) ops).

(** The calls as changes of the plain array; the searches leave it alone. *)
Definition lz_moves {S F} (e : S) (op : S -> S -> S) (mapping : F -> S -> S) (a : list S) (o : lz_op S F) : res (list S * lz_out S) :=
  if is_search o then Ok (a, LzUnit) else lz_spec_step e op mapping a o.

Section Top.
  Context {S F : Type} (e : S) (op : S -> S -> S) (idm : F) (mapping : F -> S -> S) (comp : F -> F -> F).
  Context (L : monoid_laws e op) (ML : map_laws op idm mapping comp) (LC : monoid_laws idm comp).
  Context (goodS : S -> Prop) (goodF : F -> Prop).
  Context (opc : S -> S -> res S) (mapc : F -> S -> res S) (compc : F -> F -> res F).
  Context (AO : agrees goodS op opc).
  Context (AM : forall f x, goodF f -> goodS x -> goodS (mapping f x) -> mapc f x = Ok (mapping f x)).
  Context (AC : forall f g, goodF f -> goodF g -> goodF (comp f g) -> compc f g = Ok (comp f g)).
  Local Notation P := (mprod e op).
  Local Notation arr := (arr e).
  Implicit Types (t : lazytree S F) (a : list S) (M : nat -> list F).

  Definition hm (log : nat) M (p : nat) : list F := M (p - 2 ^ log).
  Local Notation RR log s a M C := (RT e op idm mapping comp goodS log s (arr log a) (hm log M) all C).
  Definition maps_good M : Prop := forall p w, w `sublist_of` M p -> goodF (mprod idm comp w).

  Record LTInv t a M : Prop := {
    li_n : lt_n t = length a;
    li_size : lt_size t = 2 ^ lt_log t;
    li_le : lt_n t <= lt_size t;
    li_R : RR (lt_log t) (lt_d t, lt_lz t) a M none }.

  Lemma GA_arr log a : ranges_good e op goodS a -> GA e op goodS log (arr log a).
  Proof.
    intros G x y Hx Hy. replace x with (2 ^ log + (x - 2 ^ log)) by lia. replace y with (2 ^ log + (y - 2 ^ log)) by lia.
    rewrite (Pr_arr e op L) by lia. set (l := x - 2 ^ log). set (r := y - 2 ^ log).
    destruct (decide (r <= length a)); [apply G; lia|]. destruct (decide (l <= length a)) as [Hl|Hl].
    - replace (slice a l r) with (slice a l (length a)); [apply G; lia|]. unfold slice. rewrite !take_ge by (rewrite drop_length; lia). reflexivity.
    - replace (slice a l r) with (slice a 0 0); [apply G; lia|]. unfold slice. rewrite (drop_ge a l) by lia. rewrite take_nil. reflexivity.
  Qed.
  Lemma GH_hm log M : maps_good M -> GH idm comp goodF log (hm log M).
  Proof. intros G p w _ Hw. apply (G _ w Hw). Qed.

  Lemma from_good v : (Z.of_nat (length v) < 2 ^ 32)%Z -> ranges_good e op goodS v ->
    exists t, ltc_from e opc idm v = Ok t /\ LTInv t v (fun _ => []).
  Proof.
    intros Hlen G. unfold ltc_from. rewrite Z.mod_small by lia.
    destruct (ceil_lg_pow (Z.of_nat (length v))) as (k & Hk & Hk32 & Hle); [lia|].
    rewrite Hk. cbn [mbind res_bind].
    set (log := Z.to_nat k). set (size := 2 ^ log).
    assert (length v <= size) as Hvs.
    { unfold size, log. apply Nat2Z.inj_le. rewrite Nat2Z.inj_pow, Z2Nat.id by lia. exact Hle. }
    assert (0 < size) as Hsz by apply pow2_pos.
    destruct (copy_into_ok (replicate (2 * size) e) size v) as (d & -> & Hd & Hleaf & Hout).
    { rewrite replicate_length. lia. }
    rewrite replicate_length in Hd. cbn [mbind res_bind].
    set (lz := replicate size idm).
    assert (HLz : forall (d : list S) x, Lz idm (d, lz) x = idm).
    { intros d' x. unfold Lz. cbn. destruct (lz !! x) as [f|] eqn:E; cbn; [|reflexivity]. apply lookup_replicate in E as [-> _]. reflexivity. }
    assert (Hidl : forall (d : list S) x, idl idm mapping (d, lz) x).
    { intros d' x y. rewrite HLz. apply (mpl_id _ _ _ _ ML). }
    assert (Hd1 : forall x, x < length v -> D e (d, lz) (size + x) = default e (v !! x)).
    { intros x Hx. unfold D. cbn. rewrite Hleaf by exact Hx. reflexivity. }
    destruct (rfor_rev_range_inv
      (fun i s => RT e op idm mapping comp goodS log s (arr log v) (hm log (fun _ => [])) (fun _ x => i <= x) all)
      1 size (fun i s => ltc_update opc s i) (d, lz)) as (s & Hr & HR).
    - lia.
    - split.
      + split.
        * exact Hd.
        * cbn. unfold lz. rewrite replicate_length. reflexivity.
        * intros p Hp. rewrite (val_clean e idm mapping (d, lz) 0 log p); [|lia|intros; apply Hidl].
          cbn. unfold D, LazyTop.arr. cbn. unfold leaf in Hp. fold size in Hp |- *.
          destruct (decide (p - size < length v)) as [H|H].
          -- rewrite <- Hleaf by exact H. f_equal. f_equal. lia.
          -- rewrite Hout by lia. rewrite lookup_replicate_2 by lia. rewrite lookup_ge_None_2 by lia. reflexivity.
        * intros h x Hx Hge. assert (h = 0) as ->.
          { destruct h; [reflexivity|]. apply (node_inner log) in Hx. fold size in Hx. lia. }
          rewrite Nat.pow_0_r, !Nat.mul_1_r, (Pr_one e op L). reflexivity.
        * intros h x _ _ _. apply Hidl.
      + exists (fun _ => []). split; [intros x; apply HLz|]. split; [auto|]. intros p _. unfold hm.
        rewrite (pw_clean _ p 0 log); [reflexivity|lia|auto].
      + intros x Hx. destruct (decide (size <= x < size + length v)) as [H|H].
        * replace x with (size + (x - size)) by lia. rewrite Hd1 by lia.
          destruct (lookup_lt_is_Some_2 v (x - size)) as [y Ey]; [lia|]. rewrite Ey. cbn.
          assert (E : P (slice v (x - size) (x - size + 1)) = y) by (rewrite (slice_single v (x - size) y Ey); apply (mprod_single _ _ L)).
          rewrite <- E. apply G. lia.
        * unfold D. cbn. rewrite Hout by lia. rewrite lookup_replicate_2 by (fold size in Hx; lia). cbn.
          pose proof (G 0 0 ltac:(lia)) as H0. rewrite slice_nil in H0 by lia. exact H0.
    - intros i s Hi HR.
      destruct (node_exists log i) as [h Hn]; [fold size; lia|].
      destruct h as [|h]; [apply (node_inner log) in Hn; fold size in Hn; lia|].
      destruct (RT_update e op idm mapping comp L goodS opc AO log s (arr log v) _ _ _ h i HR Hn) as (s' & E & HR');
        [lia|lia|exact I|intros; exact I|apply GA_arr; exact G|].
      exists s'. split; [exact E|]. eapply RT_mono; [exact HR'|reflexivity|reflexivity| |auto].
      intros j x Hx Hge. destruct (decide (x = i)) as [->|]; [right|left; lia].
      split; [|reflexivity]. eapply node_uniq; eassumption.
    - unfold range. rewrite Hr. cbn [mbind res_bind].
      eexists. split; [reflexivity|]. split; cbn [lt_n lt_size lt_log lt_d lt_lz].
      + reflexivity.
      + reflexivity.
      + exact Hvs.
      + destruct s as [d' lz']. cbn. eapply RT_mono; [exact HR|reflexivity|reflexivity| |intros ? ? _ _ []].
        intros h x Hx _. apply node_range in Hx as [_ Hx]. pose proof (pow2_pos (log - h)). lia.
  Qed.

  Section Ops.
    Context (t : lazytree S F) (a : list S) (M : nat -> list F) (I : LTInv t a M) (HG : ranges_good e op goodS a) (HM : maps_good M).
    Local Notation log := (lt_log t).
    Local Notation n := (lt_n t).

    Lemma linv_with s C b M' : RR log s b M' C -> length b = length a -> LTInv (with_tree t s) b M'.
    Proof.
      intros HR Hb. split; cbn.
      - rewrite Hb. apply I.
      - apply I.
      - apply I.
      - destruct s. eapply RT_mono; [exact HR|reflexivity|reflexivity|auto|intros ? ? _ _ []].
    Qed.

    Lemma leaf_of p : p < lt_size t -> leaf log (p + lt_size t).
    Proof. intros H. rewrite (li_size _ _ _ I) in *. split; lia. Qed.

    Lemma push_path p : p < n -> exists s, ltc_push_path idm mapc compc (lt_size t) log (lt_d t, lt_lz t) (p + lt_size t) = Ok s /\
      RR log s a M (on_path (p + lt_size t)).
    Proof.
      intros Hp. pose proof (li_le _ _ _ I). pose proof (leaf_of p ltac:(lia)) as Hl.
      destruct (push_path_ok e op idm mapping comp L ML LC goodS goodF mapc compc AM AC log _ _ _ _ _ (li_R _ _ _ I) Hl (GA_arr log a HG) (GH_hm log M HM)) as (s & E & HR).
      exists s. split; [|exact HR]. rewrite <- E. rewrite (li_size _ _ _ I) at 1. reflexivity.
    Qed.

    Lemma read_leaf s p : p < n -> RR log s a M (on_path (p + lt_size t)) ->
      exists x, a !! p = Some x /\ vget s.1 (p + lt_size t) = Ok x.
    Proof.
      intros Hp HR. pose proof (li_le _ _ _ I). pose proof (li_n _ _ _ I).
      destruct (lookup_lt_is_Some_2 a p) as [x Ex]; [lia|]. exists x. split; [exact Ex|].
      rewrite (RT_read e op idm mapping comp goodS log s _ _ all _ 0 (p + lt_size t) HR).
      - rewrite Nat.pow_0_r, !Nat.mul_1_r, (Pr_one e op L). unfold LazyTop.arr. rewrite (li_size _ _ _ I).
        replace (p + 2 ^ log - 2 ^ log) with p by lia. rewrite Ex. reflexivity.
      - apply leaf_node0, leaf_of. lia.
      - exact Logic.I.
      - intros j y _ [Hj ->]. split; [exact Hj|]. rewrite Nat.sub_0_r. reflexivity.
    Qed.

    Lemma write_leaf s p x : p < n -> ranges_good e op goodS (<[p := x]> a) -> RR log s a M (on_path (p + lt_size t)) ->
      exists s', (d ← vset s.1 (p + lt_size t) x; ltc_update_path opc log (d, s.2) (p + lt_size t)) = Ok s' /\
        LTInv (with_tree t s') (<[p := x]> a) M.
    Proof.
      intros Hp HG' HR. pose proof (li_le _ _ _ I). pose proof (li_n _ _ _ I).
      pose proof (leaf_of p ltac:(lia)) as Hl.
      destruct (RT_set_leaf e op idm mapping comp L goodS log s _ _ _ _ _ x HR Hl) as [-> HR1].
      { intros j Hj. split; [lia|reflexivity]. }
      { assert (E : P (slice (<[p := x]> a) p (p + 1)) = x).
        { rewrite (slice_single _ p x) by (apply list_lookup_insert; lia). apply (mprod_single _ _ L). }
        rewrite <- E. apply HG'. rewrite insert_length. lia. }
      cbn [mbind res_bind].
      destruct (update_path_ok e op idm mapping comp L goodS opc AO log (<[p + lt_size t := x]> s.1, s.2) (arr log (<[p := x]> a)) (hm log M) (p + lt_size t) Hl (GA_arr log _ HG'))
        as (s' & -> & HR2).
      - eapply RT_mono; [exact HR1| |reflexivity|intros ? ? _ ?; split; [exact Logic.I|assumption]|auto].
        intros q Hq. unfold LazyTop.arr. unfold leaf in Hq. rewrite <- (li_size _ _ _ I) in *.
        rewrite (default_insert e a p x (q - lt_size t)) by lia.
        destruct (decide (q = p + lt_size t)), (decide (q - lt_size t = p)); try reflexivity; exfalso; lia.
      - exists s'. split; [reflexivity|]. eapply linv_with; [exact HR2|apply insert_length].
    Qed.

    Lemma set_ok p x : p < n -> ranges_good e op goodS (<[p := x]> a) -> exists t', ltc_set opc idm mapc compc t p x = Ok t' /\ LTInv t' (<[p := x]> a) M.
    Proof.
      intros Hp HG'. unfold ltc_set. destruct (Nat.ltb_spec p n); [|lia]. cbn [rassert mbind res_bind].
      destruct (push_path p Hp) as (s & -> & HR). cbn [mbind res_bind].
      destruct (write_leaf s p x Hp HG' HR) as (s' & E & HI).
      destruct (vset s.1 (p + lt_size t) x) as [d| |]; cbn [mbind res_bind] in *; try discriminate.
      rewrite E. cbn [mbind res_bind]. eauto.
    Qed.

    Lemma get_ok p x : a !! p = Some x -> exists t', ltc_get idm mapc compc t p = Ok (t', x) /\ LTInv t' a M.
    Proof.
      intros Hx. assert (Hp : p < n) by (rewrite (li_n _ _ _ I); apply lookup_lt_Some in Hx; exact Hx).
      unfold ltc_get. destruct (Nat.ltb_spec p n); [|lia]. cbn [rassert mbind res_bind].
      destruct (push_path p Hp) as (s & -> & HR). cbn [mbind res_bind].
      destruct (read_leaf s p Hp HR) as (y & Ey & ->). cbn [mbind res_bind].
      assert (y = x) as -> by congruence. eexists. split; [reflexivity|]. eapply linv_with; [exact HR|reflexivity].
    Qed.

    Lemma apply_ok p x f : a !! p = Some x -> goodF f -> ranges_good e op goodS (<[p := mapping f x]> a) ->
      exists t', ltc_apply opc idm mapc compc t p f = Ok t' /\ LTInv t' (<[p := mapping f x]> a) M.
    Proof.
      intros Hx Hf HG'. assert (Hp : p < n) by (rewrite (li_n _ _ _ I); apply lookup_lt_Some in Hx; exact Hx).
      unfold ltc_apply. destruct (Nat.ltb_spec p n); [|lia]. cbn [rassert mbind res_bind].
      destruct (push_path p Hp) as (s & -> & HR). cbn [mbind res_bind].
      destruct (read_leaf s p Hp HR) as (y & Ey & ->). cbn [mbind res_bind].
      assert (y = x) as -> by congruence. rewrite (li_n _ _ _ I) in Hp.
      assert (Hsingle : forall b q z, ranges_good e op goodS b -> b !! q = Some z -> goodS z).
      { intros b q z Hb Hz. pose proof (lookup_lt_Some _ _ _ Hz) as Hq. specialize (Hb q (q + 1) ltac:(lia)).
        rewrite (slice_single b q z Hz), (mprod_single _ _ L) in Hb. exact Hb. }
      rewrite AM; [|exact Hf|apply (Hsingle a p); assumption|apply (Hsingle _ p _ HG'); apply list_lookup_insert; exact Hp]. cbn [mbind res_bind].
      rewrite <- (li_n _ _ _ I) in Hp.
      destruct (write_leaf s p (mapping f x) Hp HG' HR) as (s' & E & HI).
      destruct (vset s.1 (p + lt_size t) _) as [d| |]; cbn [mbind res_bind] in *; try discriminate.
      rewrite E. cbn [mbind res_bind]. eauto.
    Qed.

    Lemma all_prod_ok : ltc_all_prod t = Ok (P a).
    Proof.
      unfold ltc_all_prod. pose proof (pow2_pos log) as Hsz. pose proof (li_le _ _ _ I). pose proof (li_n _ _ _ I).
      pose proof (li_size _ _ _ I).
      pose proof (RT_read e op idm mapping comp goodS log _ _ _ all _ log 1 (li_R _ _ _ I)) as HR. cbn [fst] in HR. rewrite HR.
      - f_equal. replace (1 * 2 ^ log) with (2 ^ log + 0) by lia. replace ((1 + 1) * 2 ^ log) with (2 ^ log + 2 ^ log) by lia.
        rewrite (Pr_arr_full e op L) by lia. rewrite slice_full. reflexivity.
      - split; [lia|]. lia.
      - exact Logic.I.
      - intros j x (Hj & _) [Hj' _]. lia.
    Qed.

    Lemma prod_ok l r : l <= r <= n -> exists t', ltc_prod e opc idm mapc compc t l r = Ok (t', P (slice a l r)) /\ LTInv t' a M.
    Proof.
      intros Hlr. unfold ltc_prod. pose proof (li_le _ _ _ I). pose proof (li_n _ _ _ I). pose proof (li_size _ _ _ I) as Hsize.
      destruct (Nat.leb_spec l r); [|lia]. destruct (Nat.leb_spec r n); [|lia]. cbn [andb rassert mbind res_bind].
      destruct (Nat.eqb_spec l r) as [->|Hne].
      { eexists. split; [rewrite slice_nil by lia; reflexivity|exact I]. }
      destruct (push_bounds_ok e op idm mapping comp L ML LC goodS goodF mapc compc AM AC log _ _ _ _ (l + lt_size t) (r + lt_size t) true (li_R _ _ _ I) (GA_arr log a HG) (GH_hm log M HM))
        as (s & E & HR); [rewrite <- Hsize; lia|rewrite <- Hsize; lia|].
      rewrite <- Hsize in E. rewrite E. cbn [mbind res_bind].
      destruct (prod_loop_ok e op idm mapping comp L goodS opc AO log s _ _ _ _ _ HR) as (sml & smr & -> & Hp);
        [intros; exact Logic.I|apply GA_arr; exact HG|rewrite <- Hsize; lia|rewrite <- Hsize; lia|].
      cbn [mbind res_bind]. rewrite Hp. cbn [mbind res_bind]. rewrite Hsize, !(Nat.add_comm _ (2 ^ log)), (Pr_arr e op L) by lia.
      eexists. split; [reflexivity|]. eapply linv_with; [exact HR|reflexivity].
    Qed.

    Lemma apply_range_ok l r f M' : l <= r <= n -> ranges_good e op goodS (map_range (mapping f) l r a) -> maps_good M' ->
      (forall p, M' p = if decide (l <= p < r) then f :: M p else M p) ->
      exists t', ltc_apply_range opc idm mapc compc t l r f = Ok t' /\ LTInv t' (map_range (mapping f) l r a) M'.
    Proof.
      intros Hlr HG' HM' EM. unfold ltc_apply_range. pose proof (li_le _ _ _ I). pose proof (li_n _ _ _ I). pose proof (li_size _ _ _ I) as Hsize.
      destruct (Nat.leb_spec l r); [|lia]. destruct (Nat.leb_spec r n); [|lia]. cbn [andb rassert mbind res_bind].
      assert (Hlen : length (map_range (mapping f) l r a) = length a) by (unfold map_range; apply imap_length).
      assert (Hlook : forall i, map_range (mapping f) l r a !! i =
        if decide (l <= i < r) then mapping f <$> a !! i else a !! i).
      { intros i. unfold map_range. rewrite list_lookup_imap. destruct (a !! i) as [x|]; cbn.
        - destruct (Nat.leb_spec l i), (Nat.ltb_spec i r); cbn; destruct (decide _); try reflexivity; exfalso; lia.
        - destruct (decide _); reflexivity. }
      destruct (Nat.eqb_spec l r) as [->|Hne].
      { eexists. split; [reflexivity|]. replace (map_range (mapping f) r r a) with a; [|].
        { destruct I as [I1 I2 I3 I4]. split; auto. eapply RT_mono; [exact I4|reflexivity| |auto|auto]. intros p _. unfold hm. rewrite EM, decide_False by lia. reflexivity. }
        apply list_eq. intros i. rewrite Hlook, decide_False by lia. reflexivity. }
      assert (Harr : forall p, leaf log p -> arr log (map_range (mapping f) l r a) p =
        if decide (l + lt_size t <= p < r + lt_size t) then mapping f (arr log a p) else arr log a p).
      { intros p Hp. unfold LazyTop.arr. unfold leaf in Hp. rewrite <- Hsize in *. rewrite Hlook.
        destruct (decide (l <= p - lt_size t < r)) as [Q1|Q1], (decide (l + lt_size t <= p < r + lt_size t)) as [Q2|Q2];
          try reflexivity; try (exfalso; lia).
        destruct (lookup_lt_is_Some_2 a (p - lt_size t)) as [x Ex]; [lia|]. rewrite Ex. reflexivity. }
      assert (Hmap : forall p, leaf log p -> hm log M' p = if decide (l + lt_size t <= p < r + lt_size t) then f :: hm log M p else hm log M p).
      { intros p Hp. unfold hm. unfold leaf in Hp. rewrite <- Hsize in *. rewrite EM.
        destruct (decide (l <= p - lt_size t < r)) as [Q1|Q1], (decide (l + lt_size t <= p < r + lt_size t)) as [Q2|Q2];
          try reflexivity; exfalso; lia. }
      destruct (push_bounds_ok e op idm mapping comp L ML LC goodS goodF mapc compc AM AC log _ _ _ _ (l + lt_size t) (r + lt_size t) false (li_R _ _ _ I) (GA_arr log a HG) (GH_hm log M HM))
        as (s & E & HR); [rewrite <- Hsize; lia|rewrite <- Hsize; lia|].
      rewrite <- Hsize in E. rewrite E. cbn [mbind res_bind].
      destruct (apply_loop_ok e op idm mapping comp L ML LC goodS goodF mapc compc AM AC log s _ _ (l + lt_size t) (r + lt_size t) f HR) as (s1 & E1 & HR1);
        [rewrite <- Hsize; lia|rewrite <- Hsize; lia| | |].
      { eapply GA_ext; [|apply (GA_arr log _ HG')]. intros p Hp. symmetry. apply Harr. exact Hp. }
      { intros p w Hp Hw. apply (GH_hm log M' HM' p w Hp). etransitivity; [exact Hw|]. rewrite Hmap by exact Hp. reflexivity. }
      rewrite <- Hsize in E1. rewrite E1. cbn [mbind res_bind].
      destruct (update_bounds_ok e op idm mapping comp L goodS opc AO log s1 (arr log (map_range (mapping f) l r a)) (hm log M') (l + lt_size t) (r + lt_size t) (GA_arr log _ HG'))
        as (s2 & E2 & HR2).
      - eapply RT_mono; [exact HR1|exact Harr| |auto|auto]. intros p Hp. rewrite Hmap by exact Hp. reflexivity.
      - rewrite <- Hsize. lia.
      - rewrite <- Hsize. lia.
      - rewrite E2. cbn [mbind res_bind]. eexists. split; [reflexivity|]. eapply linv_with; [exact HR2|exact Hlen].
    Qed.

    Lemma max_right_top l g : l <= n -> g e = true ->
      exists t' r, ltc_max_right e opc idm mapc compc t l g = Ok (t', r) /\ LTInv t' a M /\ max_right_post e op a l g r.
    Proof.
      intros Hl Hg. unfold ltc_max_right. pose proof (li_le _ _ _ I). pose proof (li_n _ _ _ I) as Hn. pose proof (li_size _ _ _ I) as Hsize.
      destruct (Nat.leb_spec l n); [|lia]. rewrite Hg. cbn [rassert mbind res_bind].
      destruct (Nat.eqb_spec l n) as [->|Hne].
      { eexists _, _. split; [reflexivity|]. split; [exact I|]. split; [lia|]. rewrite slice_nil by lia. split; [exact Hg|]. lia. }
      destruct (push_path l ltac:(lia)) as (s & -> & HR). cbn [mbind res_bind].
      destruct (max_right_ok e op idm mapping comp L ML LC goodS goodF opc mapc compc AO AM AC log s _ _ n g (l + lt_size t) (GA_arr log a HG) (GH_hm log M HM) HR) as (s' & r & C & E & HR' & Hpost);
        [apply leaf_of; lia|exact Hg|].
      rewrite <- Hsize in E. rewrite E. cbn [mbind res_bind]. eexists _, _. split; [reflexivity|].
      split; [eapply linv_with; [exact HR'|reflexivity]|].
      assert (Hconv : forall b, l <= b -> Pr e op (arr log a) (l + lt_size t) (lt_size t + b) = P (slice a l b)).
      { intros b Hb. rewrite Hsize, (Nat.add_comm l). apply (Pr_arr e op L). exact Hb. }
      rewrite <- Hsize in Hpost.
      destruct Hpost as [[-> Hgt]|(Hr & Hgt & Hgf)].
      - split; [lia|]. split; [|lia]. replace (2 * lt_size t) with (lt_size t + lt_size t) in Hgt by lia.
        rewrite Hsize in Hgt. rewrite (Nat.add_comm l), (Pr_arr_full e op L) in Hgt by lia. rewrite Hn. exact Hgt.
      - rewrite Hconv in Hgt by lia. replace (lt_size t + r + 1) with (lt_size t + (r + 1)) in Hgf by lia.
        rewrite Hconv in Hgf by lia.
        assert (r < n).
        { destruct (decide (r < n)) as [|Hge]; [assumption|exfalso].
          assert (E' : slice a l (r + 1) = slice a l r); [|congruence].
          unfold slice. rewrite !take_ge by (rewrite drop_length; lia). reflexivity. }
        split; [lia|]. split; [exact Hgt|]. intros _. exact Hgf.
    Qed.

    Lemma min_left_top r g : r <= n -> g e = true ->
      exists t' l, ltc_min_left e opc idm mapc compc t r g = Ok (t', l) /\ LTInv t' a M /\ min_left_post e op a r g l.
    Proof.
      intros Hr Hg. unfold ltc_min_left. pose proof (li_le _ _ _ I). pose proof (li_n _ _ _ I) as Hn. pose proof (li_size _ _ _ I) as Hsize.
      destruct (Nat.leb_spec r n); [|lia]. rewrite Hg. cbn [rassert mbind res_bind].
      destruct (Nat.eqb_spec r 0) as [->|Hne].
      { eexists _, _. split; [reflexivity|]. split; [exact I|]. split; [lia|]. rewrite slice_nil by lia. split; [exact Hg|]. lia. }
      rewrite nsub_ok by lia. cbn [mbind res_bind].
      destruct (push_path (r - 1) ltac:(lia)) as (s & E0 & HR).
      replace (r - 1 + lt_size t) with (r + lt_size t - 1) in * by lia. rewrite E0. cbn [mbind res_bind].
      destruct (min_left_ok e op idm mapping comp L ML LC goodS goodF opc mapc compc AO AM AC log s _ _ g (r + lt_size t) (GA_arr log a HG) (GH_hm log M HM) HR) as (s' & l & C & E & HR' & Hpost);
        [replace (r + lt_size t - 1) with (r - 1 + lt_size t) by lia; apply leaf_of; lia|exact Hg|].
      rewrite <- Hsize in E. rewrite E. cbn [mbind res_bind]. eexists _, _. split; [reflexivity|].
      split; [eapply linv_with; [exact HR'|reflexivity]|].
      assert (Hconv : forall b, b <= r -> Pr e op (arr log a) (lt_size t + b) (r + lt_size t) = P (slice a b r)).
      { intros b Hb. rewrite Hsize, (Nat.add_comm r). apply (Pr_arr e op L). exact Hb. }
      rewrite <- Hsize in Hpost.
      destruct Hpost as [[-> Hgt]|(Hl & Hlr & Hgt & Hgf)].
      - split; [lia|]. split; [|lia]. replace (lt_size t) with (lt_size t + 0) in Hgt at 1 by lia.
        rewrite Hconv in Hgt by lia. exact Hgt.
      - rewrite Hconv in Hgt by lia. replace (lt_size t + l - 1) with (lt_size t + (l - 1)) in Hgf by lia.
        rewrite Hconv in Hgf by lia. split; [lia|]. split; [exact Hgt|]. intros _. exact Hgf.
    Qed.

  End Ops.

  Definition op_good (o : lz_op S F) : Prop := match o with LzApply _ f => goodF f | _ => True end.

  (** Every call on a well-formed tree whose values stay good is allowed by the plain array. *)
  Lemma step_good t a M o : LTInv t a M -> ranges_good e op goodS a ->
    (forall a' out, lz_moves e op mapping a o = Ok (a', out) -> ranges_good e op goodS a') ->
    maps_good (fun p => maps_on p [o] ++ M p) -> op_good o ->
    match ltc_step e opc idm mapc compc t o with
    | Ok (t', out) => exists a' out', lz_allowed e op mapping a o (Ok (a', out)) /\ lz_moves e op mapping a o = Ok (a', out') /\
        LTInv t' a' (fun p => maps_on p [o] ++ M p)
    | Panic => lz_allowed e op mapping a o Panic
    | Diverge => False
    end.
  Proof.
    intros I G G' HM' Ho.
    assert (HM : maps_good M).
    { intros p w Hw. apply (HM' p). etransitivity; [exact Hw|]. apply sublist_inserts_l. reflexivity. }
    assert (Hid : forall t' a', LTInv t' a' M -> (forall p, maps_on p [o] = []) -> LTInv t' a' (fun p => maps_on p [o] ++ M p)).
    { intros t' a' [I1 I2 I3 I4] Hn. split; auto. eapply RT_mono; [exact I4|reflexivity| |auto|auto]. intros p _. unfold hm. rewrite Hn. reflexivity. }
    pose proof (li_n _ _ _ I) as Hn. unfold lz_moves in *.
    destruct o as [p x|p|l r| |p f|l r f|l g|r g]; cbn [ltc_step lz_allowed lz_spec_step is_search] in *.
    - destruct (decide (p < lt_n t)) as [H|H].
      + destruct (Nat.ltb_spec p (length a)) as [Hp|Hp]; [|lia].
        destruct (set_ok t a M I G HM p x H (G' _ _ eq_refl)) as (t' & -> & I'). cbn [mbind res_bind]. eauto 6.
      + unfold ltc_set. destruct (Nat.ltb_spec p (lt_n t)); [lia|]. cbn. destruct (Nat.ltb_spec p (length a)); [lia|reflexivity].
    - destruct (a !! p) as [x|] eqn:E.
      + destruct (get_ok t a M I G HM p x E) as (t' & -> & I'). cbn [mbind res_bind]. eauto 6.
      + apply lookup_ge_None_1 in E. unfold ltc_get. destruct (Nat.ltb_spec p (lt_n t)); [lia|]. reflexivity.
    - destruct (Nat.leb_spec l r) as [H1|H1].
      + destruct (Nat.leb_spec r (length a)) as [H2|H2]; cbn [andb].
        * destruct (prod_ok t a M I G HM l r) as (t' & -> & I'); [lia|]. cbn [mbind res_bind]. eauto 6.
        * unfold ltc_prod. destruct (Nat.leb_spec r (lt_n t)); [lia|]. rewrite andb_false_r. reflexivity.
      + unfold ltc_prod. destruct (Nat.leb_spec l r); [lia|]. reflexivity.
    - rewrite (all_prod_ok t a M I). cbn [mbind res_bind]. eauto 6.
    - destruct (a !! p) as [x|] eqn:E.
      + destruct (apply_ok t a M I G HM p x f E Ho (G' _ _ eq_refl)) as (t' & -> & I'). cbn [mbind res_bind]. eauto 6.
      + apply lookup_ge_None_1 in E. unfold ltc_apply. destruct (Nat.ltb_spec p (lt_n t)); [lia|]. reflexivity.
    - destruct (Nat.leb_spec l r) as [H1|H1].
      + destruct (Nat.leb_spec r (length a)) as [H2|H2]; cbn [andb] in *.
        * destruct (apply_range_ok t a M I G HM l r f (fun p => maps_on p [@LzApplyRange S F l r f] ++ M p)) as (t' & -> & I'); [lia|exact (G' _ _ eq_refl)|exact HM'| |].
          { intros p. cbn. destruct (Nat.leb_spec l p), (Nat.ltb_spec p r); cbn; destruct (decide _); try reflexivity; exfalso; lia. }
          cbn [mbind res_bind]. eauto 6.
        * unfold ltc_apply_range. destruct (Nat.leb_spec r (lt_n t)); [lia|]. rewrite andb_false_r. reflexivity.
      + unfold ltc_apply_range. destruct (Nat.leb_spec l r); [lia|]. reflexivity.
    - destruct (Nat.leb_spec l (length a)) as [H1|H1]; cbn [andb].
      + destruct (g e) eqn:Hg.
        * destruct (max_right_top t a M I G HM l g) as (t' & r & -> & I' & Hp); [lia|exact Hg|]. cbn [mbind res_bind].
          exists a, LzUnit. split; [|split; [reflexivity|apply Hid; [exact I'|reflexivity]]].
          exists r. split; [reflexivity|]. split; [exact Hp|]. apply max_right_is_max. exact Hp.
        * unfold ltc_max_right. destruct (Nat.leb_spec l (lt_n t)); [|lia]. rewrite Hg. reflexivity.
      + unfold ltc_max_right. destruct (Nat.leb_spec l (lt_n t)); [lia|]. reflexivity.
    - destruct (Nat.leb_spec r (length a)) as [H1|H1]; cbn [andb].
      + destruct (g e) eqn:Hg.
        * destruct (min_left_top t a M I G HM r g) as (t' & l & -> & I' & Hp); [lia|exact Hg|]. cbn [mbind res_bind].
          exists a, LzUnit. split; [|split; [reflexivity|apply Hid; [exact I'|reflexivity]]].
          exists l. split; [reflexivity|]. split; [exact Hp|]. apply min_left_is_min. exact Hp.
        * unfold ltc_min_left. destruct (Nat.leb_spec r (lt_n t)); [|lia]. rewrite Hg. reflexivity.
      + unfold ltc_min_left. destruct (Nat.leb_spec r (lt_n t)); [lia|]. reflexivity.
  Qed.

  Lemma maps_on_cons p o (ops : list (lz_op S F)) : maps_on p (o :: ops) = maps_on p ops ++ maps_on p [o].
  Proof. unfold maps_on. cbn [flat_map]. rewrite app_nil_r, rev_app_distr. reflexivity. Qed.

  Lemma run_good ops : forall t a M, LTInv t a M -> always (lz_moves e op mapping) (ranges_good e op goodS) a ops ->
    maps_good (fun p => maps_on p ops ++ M p) -> Forall op_good ops ->
    lz_allowed_run e op mapping a ops (fmap snd (run (ltc_step e opc idm mapc compc) t ops)).
  Proof.
    induction ops as [|o ops IH]; intros t a M I HA HM Ho; cbn [run].
    - constructor.
    - apply Forall_cons in Ho as [Ho Hos]. destruct HA as [G HA].
      pose proof (step_good t a M o I G) as H. feed specialize H.
      { intros a' out E. rewrite E in HA. apply (always_hd _ _ _ _ HA). }
      { intros p w Hw. apply (HM p). etransitivity; [exact Hw|]. rewrite (maps_on_cons p o ops), <- app_assoc. apply sublist_inserts_l. reflexivity. }
      { exact Ho. }
      destruct (ltc_step e opc idm mapc compc t o) as [[t' out]| |]; cbn [mbind res_bind]; [|constructor; exact H|contradiction].
      destruct H as (a' & out' & H & Hm & I'). rewrite Hm in HA.
      pose proof (IH t' a' _ I' HA) as Hr. feed specialize Hr.
      { intros p w Hw. apply (HM p). rewrite (maps_on_cons p o ops), <- app_assoc. exact Hw. }
      { exact Hos. }
      destruct (run (ltc_step e opc idm mapc compc) t' ops) as [[t2 outs]| |]; cbn [mbind res_bind fmap res_fmap] in *.
      + eapply lar_ok; eassumption.
      + eapply lar_later; eassumption.
      + exfalso. inversion Hr.
  Qed.
End Top.
