(** Over additions that may panic the Fenwick tree does the same as over total ones, as long as range sums are good. *)
From Verif Require Import Prelude UtilModel UtilProof ArraySpec FenwickSpec FenwickModel FenwickProof PartialOps FenwickChkModel.

Section Proof.
  Context {T U : Type} (zero : T) (add : T -> T -> T) (addu : T -> U -> T).
  Context (L : monoid_laws zero add) (C : forall x y, add x y = add y x) (HU : forall x u, addu x u = add x (addu zero u)).
  Context (good : T -> Prop) (addc : T -> T -> res T) (adduc : T -> U -> res T).
  Context (A : agrees good add addc) (AU : agrees good addu adduc).
  Local Notation P := (mprod zero add).

  Lemma fwc_from_same a : ranges_good zero add good a -> fwc_from zero addc a = fw_from zero add a.
  Proof.
    intros G. unfold fwc_from, fw_from, range_incl. set (n := length a).
    match goal with |- context [rfor _ ?b _ ≫= _ = rfor _ ?b' _ ≫= _] => set (bodyc := b); set (body := b') end.
    enough (rfor (seq 1 (S n - 1)) bodyc (fw_ary (fw_new zero n)) = rfor (seq 1 (S n - 1)) body (fw_ary (fw_new zero n))) as -> by reflexivity.
    apply (rfor_range_ext (fun i ary => length ary = n /\ forall j, 1 <= j <= n ->
        if j <? i then ary !! (j - 1) = Some (P (slice a (j - lowbit j) j))
        else exists x, filled i j x /\ ary !! (j - 1) = Some (P (slice a (j - lowbit j) x)))).
    - lia.
    - cbn [fw_new fw_ary]. rewrite replicate_length. split; [reflexivity|]. intros j Hj.
      destruct (Nat.ltb_spec j 1); [lia|]. exists (j - lowbit j). split.
      + split; [left; reflexivity|]. intros c Hc. lia.
      + rewrite slice_nil by lia. apply lookup_replicate_2. lia.
    - intros i ary Hi [Hlen Hnode]. unfold body, bodyc.
      destruct (vget_lt a (i - 1)) as (x & Hx & Hx'); [fold n; lia|]. rewrite Hx. cbn [mbind res_bind].
      pose proof (Hnode i ltac:(lia)) as Hi'. rewrite (proj2 (Nat.ltb_ge i i)) in Hi' by lia.
      destruct Hi' as (xi & Hf & Hai). apply filled_self in Hf; [|lia]. subst xi.
      rewrite (vget_ok _ _ _ Hai). cbn [mbind res_bind].
      pose proof (lowbit_pos i ltac:(lia)) as Hlp. pose proof (lowbit_le i) as Hle.
      assert (add (P (slice a (i - lowbit i) (i - 1))) x = P (slice a (i - lowbit i) i)) as Ev.
      { rewrite <- (P_snoc zero add L a _ (i - 1)); [|lia|exact Hx']. f_equal. f_equal. lia. }
      rewrite (A _ x) by (rewrite Ev; apply G; fold n; lia). cbn [mbind res_bind]. rewrite Ev.
      rewrite vset_ok by lia. cbn [mbind res_bind].
      set (v := P (slice a (i - lowbit i) i)).
      set (j := i + lowbit i).
      assert (forall ary', length ary' = n ->
         (forall k, 1 <= k <= n -> k <> i -> k <> j -> ary' !! (k - 1) = ary !! (k - 1)) ->
         ary' !! (i - 1) = Some v ->
         (j <= n -> ary' !! (j - 1) = Some (P (slice a (j - lowbit j) i))) ->
         length ary' = n /\ forall k, 1 <= k <= n ->
           if k <? i + 1 then ary' !! (k - 1) = Some (P (slice a (k - lowbit k) k))
           else exists x, filled (i + 1) k x /\ ary' !! (k - 1) = Some (P (slice a (k - lowbit k) x))) as Hgen.
      { intros ary' Hl' Hoth Hati Hatj. split; [exact Hl'|]. intros k Hk.
        destruct (decide (k = i)) as [->|Hki].
        { destruct (Nat.ltb_spec i (i + 1)); [exact Hati|lia]. }
        destruct (decide (k = j)) as [->|Hkj].
        { destruct (Nat.ltb_spec j (i + 1)); [unfold j in *; lia|]. exists i.
          split; [apply filled_step_parent; lia|apply Hatj; lia]. }
        specialize (Hnode k Hk). rewrite Hoth by assumption.
        destruct (Nat.ltb_spec k i), (Nat.ltb_spec k (i + 1)); try lia; [exact Hnode|].
        destruct Hnode as (xk & Hf & Hak). exists xk. split; [|exact Hak].
        apply filled_step_other; [lia|exact Hkj|exact Hf]. }
      destruct (Nat.leb_spec j n) as [Hjn|Hjn].
      + rewrite (vget_ok _ (i - 1) v) by (rewrite list_lookup_insert by lia; reflexivity).
        cbn [mbind res_bind].
        pose proof (Hnode j ltac:(unfold j in *; lia)) as Hj'.
        rewrite (proj2 (Nat.ltb_ge j i)) in Hj' by (unfold j; lia).
        destruct Hj' as (xj & Hfj & Haj).
        pose proof (filled_ge i j xj ltac:(unfold j; lia) Hfj) as Hge.
        apply filled_parent in Hfj; [|lia]. subst xj.
        rewrite (vget_ok _ (j - 1) (P (slice a (j - lowbit j) (i - lowbit i))))
          by (rewrite list_lookup_insert_ne by (unfold j; lia); exact Haj).
        cbn [mbind res_bind].
        assert (add (P (slice a (j - lowbit j) (i - lowbit i))) v = P (slice a (j - lowbit j) i)) as Ev2.
        { unfold v. rewrite <- (mprod_app _ _ L), slice_app by lia. reflexivity. }
        rewrite (A _ v) by (rewrite Ev2; apply G; fold n; lia). cbn [mbind res_bind]. rewrite Ev2.
        rewrite vset_ok by (rewrite insert_length; lia). split; [reflexivity|].
        intros s' Es. injection Es as <-. apply Hgen.
        * rewrite !insert_length. exact Hlen.
        * intros k Hk Hki Hkj. rewrite !list_lookup_insert_ne by lia. reflexivity.
        * rewrite list_lookup_insert_ne by (unfold j; lia). apply list_lookup_insert. lia.
        * intros _. rewrite list_lookup_insert by (rewrite insert_length; lia). reflexivity.
      + split; [reflexivity|]. intros s' Es. injection Es as <-. apply Hgen.
        * rewrite insert_length. exact Hlen.
        * intros k Hk Hki Hkj. rewrite list_lookup_insert_ne by lia. reflexivity.
        * apply list_lookup_insert. lia.
        * lia.
  Qed.

  Section Reads.
    Context (t : fenwick T) (a : list T) (I : FInv zero add t a).
    Local Notation n := (length a).

    Lemma fwc_pref_same idx (G : forall l r, l <= r <= idx -> r <= n -> good (P (slice a l r))) : fwc_pref zero addc t idx = fw_pref zero add t idx.
    Proof.
      unfold fwc_pref, fw_pref. destruct (decide (idx <= n)) as [Hidx|Hidx].
      - apply (rloop_ext (fun '(i, sum) => i <= idx /\ sum = P (slice a i idx))).
        + intros [i sum] (Hi & ->). destruct (Nat.ltb_spec 0 i) as [H0|H0]; [|split; [reflexivity|discriminate]].
          pose proof (lowbit_pos i H0). pose proof (lowbit_le i).
          rewrite (vget_ok _ _ _ (fi_node _ _ _ _ I i ltac:(lia))). cbn [mbind res_bind].
          assert (add (P (slice a i idx)) (P (slice a (i - lowbit i) i)) = P (slice a (i - lowbit i) idx)) as E.
          { rewrite C, <- (mprod_app _ _ L), slice_app by lia. reflexivity. }
          rewrite A by (rewrite E; apply G; lia). cbn [mbind res_bind]. rewrite E. split; [reflexivity|].
          intros s' Es. injection Es as <-. rewrite land_pred by lia. split; [lia|reflexivity].
        + split; [lia|]. rewrite slice_nil by lia. reflexivity.
      - replace (idx + 1) with (S idx) by lia. cbn [rloop]. destruct (Nat.ltb_spec 0 idx); [|lia].
        rewrite vget_panic by (rewrite (fi_len _ _ _ _ I); lia). reflexivity.
    Qed.

    Lemma fwc_add_same p u :
      ranges_good zero add good (match a !! p with Some x => <[p := addu x u]> a | None => a end) ->
      fwc_add adduc t p u = fw_add addu t p u.
    Proof.
      set (a' := match a !! p with Some x => <[p := addu x u]> a | None => a end). intros G'.
      assert (length a' = n) as La' by (unfold a'; destruct (a !! p); rewrite ?insert_length; reflexivity).
      unfold fwc_add, fw_add. rewrite (fi_n _ _ _ _ I).
      assert (forall j, 1 <= j <= n -> covers j (p + 1) ->
        P (slice a' (j - lowbit j) j) = addu (P (slice a (j - lowbit j) j)) u) as Hin.
      { intros j Hj Hc. unfold covers in Hc. unfold a'.
        destruct (lookup_lt_is_Some_2 a p ltac:(lia)) as [x Hx]. rewrite Hx.
        rewrite (HU (P _)). apply (P_update zero add L _ _ _ p x); [lia|lia|exact C|exact Hx|apply HU]. }
      match goal with |- rloop _ ?b _ ≫= _ = rloop _ ?b' _ ≫= _ => set (bodyc := b); set (body := b') end.
      enough (rloop (n + 2) bodyc (p + 1, fw_ary t) = rloop (n + 2) body (p + 1, fw_ary t)) as -> by reflexivity.
      apply (rloop_ext (fun '(i, ary) => p + 1 <= i /\ length ary = n /\
          (forall j, 1 <= j <= n -> covers j i -> covers j (p + 1)) /\
          (forall j, 1 <= j <= n -> i <= j -> ary !! (j - 1) = Some (P (slice a (j - lowbit j) j))))).
      - intros [i ary] (Hpi & Hlen & Hch & Hval). unfold bodyc, body.
        destruct (Nat.leb_spec i n) as [Hin'|Hin']; [|split; [reflexivity|discriminate]].
        pose proof (lowbit_pos i ltac:(lia)) as Hl.
        rewrite (vget_ok _ _ _ (Hval i ltac:(lia) ltac:(lia))). cbn [mbind res_bind].
        assert (covers i (p + 1)) as Hci by (apply Hch; [lia|]; apply covers_self; lia).
        pose proof (Hin i ltac:(lia) Hci) as E.
        rewrite AU by (rewrite <- E; apply G'; rewrite La'; lia). cbn [mbind res_bind]. split; [reflexivity|].
        intros s' Es. rewrite vset_ok in Es by lia. cbn [mbind res_bind] in Es. injection Es as <-.
        split; [lia|]. split; [rewrite insert_length; exact Hlen|]. split.
        + intros j Hj Hc. apply Hch; [exact Hj|]. apply (covers_next i j) in Hc; [tauto|lia|lia].
        + intros j Hj Hij. rewrite list_lookup_insert_ne by lia. apply Hval; lia.
      - split; [lia|]. split; [apply (fi_len _ _ _ _ I)|]. split; [auto|]. intros j Hj _. apply (fi_node _ _ _ _ I). exact Hj.
    Qed.

    Lemma fwc_partition_same pred (G : ranges_good zero add good a) : (Z.of_nat n < 2 ^ 64)%Z -> fwc_partition_point zero addc t pred = fw_partition_point zero add t pred.
    Proof.
      intros Hn64. unfold fwc_partition_point, fw_partition_point. rewrite (fi_n _ _ _ _ I).
      destruct (decide (n = 0)) as [->|Hn]; [reflexivity|]. rewrite lg_spec by lia.
      cbn [mbind res_bind]. set (top := Z.to_nat (Z.log2 (Z.of_nat n))). unfold range_incl.
      match goal with |- rfor _ ?b _ ≫= _ = rfor _ ?b' _ ≫= _ => set (bodyc := b); set (body := b') end.
      enough (rfor (rev (seq 0 (S top - 0))) bodyc (0, zero) = rfor (rev (seq 0 (S top - 0))) body (0, zero)) as -> by reflexivity.
      apply (rfor_rev_range_ext (fun i '(pos, sum) => pos <= n /\ sum = P (slice a 0 pos) /\ exists q, pos = 2 ^ i * q)).
      - lia.
      - split; [lia|]. split; [rewrite slice_nil by lia; reflexivity|]. exists 0. lia.
      - intros i [pos sum] Hi (Hpos & -> & Hq). unfold bodyc, body. pose proof (pow2_gt0 i).
        assert (2 ^ (i + 1) = 2 * 2 ^ i) as E by (rewrite Nat.add_1_r; apply Nat.pow_succ_r').
        assert (exists q, pos = 2 ^ i * q) as Hq' by (destruct Hq as [q ->]; exists (2 * q); rewrite E; lia).
        destruct (Nat.leb_spec (pos + 2 ^ i) n) as [Hle|Hgt].
        + pose proof (fi_node _ _ _ _ I (pos + 2 ^ i) ltac:(lia)) as Hnode.
          rewrite (lowbit_pos_bit i pos Hq) in Hnode.
          replace (pos + 2 ^ i - 2 ^ i) with pos in Hnode by lia.
          rewrite (vget_ok _ _ _ Hnode). cbn [mbind res_bind].
          assert (add (P (slice a 0 pos)) (P (slice a pos (pos + 2 ^ i))) = P (slice a 0 (pos + 2 ^ i))) as Ev.
          { rewrite <- (mprod_app _ _ L), slice_app by lia. reflexivity. }
          rewrite A by (rewrite Ev; apply G; lia). cbn [mbind res_bind].
          rewrite ?A by (rewrite Ev; apply G; lia). cbn [mbind res_bind]. rewrite Ev.
          destruct (pred _); (split; [reflexivity|]); intros s' Es; injection Es as <-.
          * split; [lia|]. split; [reflexivity|]. destruct Hq' as [q ->]. exists (q + 1). lia.
          * split; [lia|]. split; [reflexivity|]. exact Hq'.
        + split; [reflexivity|]. intros s' Es. injection Es as <-. auto.
    Qed.
  End Reads.
End Proof.

(** ** Over operations that compute or panic *)
Section Weaker.
  Context {T U : Type} (zero : T) (add sub : T -> T -> T) (addu : T -> U -> T).
  Context (addc subc : T -> T -> res T) (adduc : T -> U -> res T).
  Context (O : or_panics add addc) (OS : or_panics sub subc) (OU : or_panics addu adduc).

  Lemma fwc_le_from a : le_res (fwc_from zero addc a) (fw_from zero add a).
  Proof.
    unfold fwc_from, fw_from. apply le_bind; [|intros; apply le_refl]. apply le_rfor. intros i ary.
    apply le_bind; [apply le_refl|]. intros x. apply le_bind; [apply le_refl|]. intros y. apply (le_opc add); [exact O|].
    apply le_bind; [apply le_refl|]. intros ary'. destruct (i + lowbit i <=? length a); [|apply le_refl].
    apply le_bind; [apply le_refl|]. intros tmp. apply le_bind; [apply le_refl|]. intros z. apply (le_opc add); [exact O|apply le_refl].
  Qed.

  Lemma fwc_le_pref t i : le_res (fwc_pref zero addc t i) (fw_pref zero add t i).
  Proof.
    apply le_rloop. intros [j sum]. destruct (0 <? j); [|apply le_refl]. apply le_bind; [apply le_refl|]. intros x.
    apply (le_opc add); [exact O|apply le_refl].
  Qed.

  Lemma fwc_le_add t i u : le_res (fwc_add adduc t i u) (fw_add addu t i u).
  Proof.
    apply le_bind; [|intros; apply le_refl]. apply le_rloop. intros [j ary]. destruct (j <=? fw_n t); [|apply le_refl].
    apply le_bind; [apply le_refl|]. intros x. apply (le_opc addu); [exact OU|apply le_refl].
  Qed.

  Lemma fwc_le_sum t l r : le_res (fwc_sum zero addc subc t l r) (fw_sum zero add sub t l r).
  Proof.
    apply le_bind; [apply fwc_le_pref|]. intros x. apply le_bind; [apply fwc_le_pref|]. intros y.
    destruct (OS x y) as [-> | ->]; [apply le_refl|right; reflexivity].
  Qed.

  Lemma fwc_le_partition t pred : le_res (fwc_partition_point zero addc t pred) (fw_partition_point zero add t pred).
  Proof.
    unfold fwc_partition_point, fw_partition_point. apply le_bind; [apply le_refl|]. intros top. apply le_bind; [|intros [? ?]; apply le_refl].
    apply le_rfor. intros i [pos sum]. destruct (pos + 2 ^ i <=? fw_n t); [|apply le_refl]. apply le_bind; [apply le_refl|]. intros x.
    apply (le_opc add); [exact O|]. destruct (pred (add sum x)); [|apply le_refl]. apply (le_opc add); [exact O|apply le_refl].
  Qed.

  Lemma fwc_le_step t o : le_res (fwc_step zero addc subc adduc t o) (fw_step zero add sub addu t o).
  Proof.
    destruct o as [i u|i|l r]; cbn [fwc_step fw_step]; (apply le_bind; [|intros; apply le_refl]);
      [apply fwc_le_add|apply fwc_le_pref|apply fwc_le_sum].
  Qed.
End Weaker.
