From Verif Require Import Prelude UtilModel UtilProof ArraySpec FenwickSpec FenwickModel.

(** ** Index chains *)
Definition covers (j x : nat) : Prop := j - lowbit j < x <= j.

Lemma pow2_split k m : k <= m -> exists x, 0 < x /\ 2 ^ m = 2 ^ k * x.
Proof.
  intros H. exists (2 ^ (m - k)). split.
  - assert (2 ^ (m - k) <> 0) by (apply Nat.pow_nonzero; lia). lia.
  - rewrite <- Nat.pow_add_r. f_equal. lia.
Qed.

Lemma pow2_split_lt k m : k < m -> exists x, 0 < x /\ 2 ^ m = 2 * 2 ^ k * x.
Proof. intros H. destruct (pow2_split (S k) m) as (x & Hx & E); [lia|]. exists x. rewrite E, Nat.pow_succ_r'. auto. Qed.

Lemma pow2_gt0 k : 0 < 2 ^ k.
Proof. assert (2 ^ k <> 0) by (apply Nat.pow_nonzero; lia). lia. Qed.

Lemma covers_self i : 0 < i -> covers i i.
Proof. intros H. pose proof (lowbit_pos i H). unfold covers. lia. Qed.

Lemma covers_next i j : 0 < i -> 0 < j -> (covers j i /\ j <> i <-> covers j (i + lowbit i)).
Proof.
  intros Hi Hj. unfold covers.
  destruct (odd_decomp i Hi) as (k & q & Ei). destruct (odd_decomp j Hj) as (m & s & Ej).
  assert (lowbit i = 2 ^ k) as Li by (rewrite Ei; apply lowbit_decomp).
  assert (lowbit j = 2 ^ m) as Lj by (rewrite Ej; apply lowbit_decomp).
  rewrite Li, Lj. clear Li Lj. pose proof (pow2_gt0 k) as Pk. pose proof (pow2_gt0 m) as Pm.
  destruct (decide (m <= k)) as [Hmk|Hmk].
  - destruct (pow2_split m k Hmk) as (x & Hx & E). rewrite E in *. clear Hmk E.
    revert Ei Ej Pm. generalize (2 ^ m). intros M Ei Ej Pm. subst i j. split.
    + intros [[H1 H2] H3]. exfalso. apply H3.
      assert (2 * s < x * (2 * q + 1)) by (apply (Nat.mul_lt_mono_pos_l M); nia).
      assert (x * (2 * q + 1) <= 2 * s + 1) by (apply (Nat.mul_le_mono_pos_l _ _ M); nia).
      replace (M * (2 * s + 1)) with (M * (x * (2 * q + 1))) by (f_equal; lia). nia.
    + intros [H1 H2]. exfalso.
      assert (2 * s < x * (2 * q + 2)) by (apply (Nat.mul_lt_mono_pos_l M); nia).
      assert (x * (2 * q + 2) <= 2 * s + 1) by (apply (Nat.mul_le_mono_pos_l _ _ M); nia).
      lia.
  - destruct (pow2_split_lt k m) as (x & Hx & E); [lia|]. rewrite E in *. clear Hmk E Pm.
    revert Ei Ej Pk. generalize (2 ^ k). intros K Ei Ej Pk. subst i j. split.
    + intros [[H1 H2] H3]. split; [lia|].
      assert (2 * q + 1 < 2 * (x * (2 * s + 1))).
      { apply (Nat.mul_lt_mono_pos_l K); [exact Pk|]. nia. }
      assert (2 * q + 2 <= 2 * (x * (2 * s + 1))) by lia.
      transitivity (K * (2 * q + 2)); [lia|].
      transitivity (K * (2 * (x * (2 * s + 1)))); [apply Nat.mul_le_mono_l; lia|lia].
    + intros [H1 H2].
      assert (2 * (x * (2 * s)) < 2 * q + 2) as H3.
      { apply (Nat.mul_lt_mono_pos_l K); [exact Pk|]. nia. }
      assert (K * (2 * (x * (2 * s))) < K * (2 * q + 1)) as H4.
      { apply Nat.mul_lt_mono_pos_l; lia. }
      split; [split; nia|nia].
Qed.

Lemma covers_next_1 i j : 0 < i -> 0 < j -> covers j i -> j <> i -> covers j (i + lowbit i).
Proof. intros Hi Hj H1 H2. apply (proj1 (covers_next i j Hi Hj)). auto. Qed.

Lemma lowbit_interior i c : 0 < i -> i - lowbit i < c < i -> c + lowbit c <= i.
Proof.
  intros Hi Hc. destruct (covers_next c i) as [H _]; [lia|lia|].
  destruct H as [_ H]; [|exact H]. split; [unfold covers; lia|lia].
Qed.

Lemma child_covered c j : 0 < c -> c + lowbit c = j -> j - lowbit j < c < j.
Proof.
  intros Hc E. pose proof (lowbit_pos c Hc). destruct (covers_next c j) as [_ H1]; [lia|lia|].
  rewrite E in H1. destruct H1 as [H1 H2]; [apply covers_self; lia|]. unfold covers in H1. lia.
Qed.

(** i - lowbit i is either j - lowbit j or again a child of j, for j = i + lowbit i *)
Lemma sibling i : 0 < i -> let j := i + lowbit i in let y := i - lowbit i in
  y = j - lowbit j \/ (0 < y /\ y + lowbit y = j).
Proof.
  intros Hi j y. destruct (odd_decomp i Hi) as (k & q & Ei).
  assert (lowbit i = 2 ^ k) as Li by (rewrite Ei; apply lowbit_decomp).
  pose proof (pow2_gt0 k).
  assert (j = 2 ^ S k * (q + 1)) as Ej by (unfold j; rewrite Li, Nat.pow_succ_r'; nia).
  assert (y = 2 ^ S k * q) as Ey by (unfold y; rewrite Li, Nat.pow_succ_r'; nia).
  pose proof (pow2_gt0 (S k)).
  destruct (Nat.Even_or_Odd q) as [[s ->]|[s ->]].
  - left. rewrite Ej, lowbit_decomp, Ey. nia.
  - right. rewrite Ej, Ey, lowbit_decomp. nia.
Qed.

(** How far node j is filled while [from] is about to process i. *)
Definition filled (i j x : nat) : Prop :=
  (x = j - lowbit j \/ (0 < x < i /\ x + lowbit x = j)) /\
  (forall c, 0 < c < i -> c + lowbit c = j -> c <= x).

Lemma filled_ge i j x : 0 < j -> filled i j x -> j - lowbit j <= x < j.
Proof.
  intros Hj [[->|[H1 H2]] _].
  - pose proof (lowbit_pos j Hj). lia.
  - pose proof (child_covered x j). lia.
Qed.

Lemma filled_self i x : 0 < i -> filled i i x -> x = i - 1.
Proof.
  intros Hi HF. pose proof (filled_ge i i x Hi HF) as Hge. destruct HF as [_ H].
  destruct (Nat.Even_or_Odd i) as [[m E]|[m E]].
  - assert (i - 1 <= x); [|lia]. apply H; [lia|].
    replace (i - 1) with (2 * (m - 1) + 1) at 2 by lia. rewrite lowbit_odd. lia.
  - rewrite E, lowbit_odd in Hge. lia.
Qed.

Lemma filled_parent i x : 0 < i -> filled i (i + lowbit i) x -> x = i - lowbit i.
Proof.
  intros Hi [H1 H2]. pose proof (lowbit_pos i Hi) as Hl.
  pose proof (sibling i Hi) as HS. cbn zeta in HS.
  assert (forall x, 0 < x < i -> x + lowbit x = i + lowbit i -> x <= i - lowbit i) as Hup.
  { intros c Hc E. destruct (decide (c <= i - lowbit i)); [assumption|exfalso].
    pose proof (lowbit_interior i c Hi). lia. }
  destruct HS as [HS|[HS1 HS2]].
  - destruct H1 as [->|[H3 H4]]; [lia|]. specialize (Hup x H3 H4).
    pose proof (child_covered x _ (proj1 H3) H4). lia.
  - assert (i - lowbit i <= x) as Hlo by (apply H2; lia).
    destruct H1 as [->|[H3 H4]].
    + pose proof (child_covered _ _ HS1 HS2). lia.
    + specialize (Hup x H3 H4). lia.
Qed.

Lemma filled_step_parent i : 0 < i -> filled (i + 1) (i + lowbit i) i.
Proof. intros Hi. split; [right; lia|]. intros c Hc _. lia. Qed.

Lemma filled_step_other i j x : 0 < i -> j <> i + lowbit i -> filled i j x -> filled (i + 1) j x.
Proof.
  intros Hi Hne [H1 H2]. split; [destruct H1 as [H1|H1]; [left; exact H1|right; lia]|].
  intros c Hc E. destruct (decide (c = i)) as [->|]; [congruence|]. apply H2; [lia|exact E].
Qed.

Record comm_monoid {T} (zero : T) (add : T -> T -> T) : Prop := {
  cm_laws : monoid_laws zero add;
  cm_comm : forall x y, add x y = add y x }.

Section Proof.
  Context {T U : Type} (zero : T) (add : T -> T -> T) (sub : T -> T -> T) (addu : T -> U -> T).
  Context (L : monoid_laws zero add).
  Local Notation P := (mprod zero add).

  (** Node j (1-based) holds the sum of data over (j - lowbit j, j]. *)
  Record FInv (t : fenwick T) (a : list T) : Prop := {
    fi_n : fw_n t = length a;
    fi_len : length (fw_ary t) = length a;
    fi_node : forall j, 1 <= j <= length a -> fw_ary t !! (j - 1) = Some (P (slice a (j - lowbit j) j)) }.

  Lemma P_snoc a l r x : l <= r -> a !! r = Some x -> P (slice a l (r + 1)) = add (P (slice a l r)) x.
  Proof.
    intros Hlr Hx. rewrite <- (slice_app a l r (r + 1)) by lia.
    rewrite (mprod_app _ _ L), (slice_single a r x Hx), (mprod_single _ _ L). reflexivity.
  Qed.

  Lemma fw_new_inv n : FInv (fw_new zero n) (replicate n zero).
  Proof.
    constructor; cbn [fw_new fw_n fw_ary]; rewrite ?replicate_length; try reflexivity.
    intros j Hj. rewrite lookup_replicate_2 by lia. f_equal.
    assert (slice (replicate n zero) (j - lowbit j) j = replicate (lowbit j) zero) as ->.
    { unfold slice. rewrite drop_replicate, take_replicate. f_equal. pose proof (lowbit_le j). lia. }
    symmetry. apply (mprod_replicate_e _ _ L).
  Qed.

  Lemma fw_from_inv a : exists t, fw_from zero add a = Ok t /\ FInv t a.
  Proof.
    unfold fw_from, range_incl. set (n := length a).
    match goal with |- context [rfor _ ?b _] => set (body := b) end.
    destruct (rfor_range_inv (fun i ary => length ary = n /\ forall j, 1 <= j <= n ->
        if j <? i then ary !! (j - 1) = Some (P (slice a (j - lowbit j) j))
        else exists x, filled i j x /\ ary !! (j - 1) = Some (P (slice a (j - lowbit j) x)))
        1 (S n) body (replicate n zero)) as (ary & Hr & Hlen & Hnode).
    - lia.
    - rewrite replicate_length. split; [reflexivity|]. intros j Hj.
      destruct (Nat.ltb_spec j 1); [lia|]. exists (j - lowbit j). split.
      + split; [left; reflexivity|]. intros c Hc. lia.
      + rewrite slice_nil by lia. apply lookup_replicate_2. lia.
    - intros i ary Hi [Hlen Hnode]. unfold body.
      destruct (vget_lt a (i - 1)) as (x & Hx & Hx'); [fold n; lia|]. rewrite Hx. cbn [mbind res_bind].
      pose proof (Hnode i ltac:(lia)) as Hi'. rewrite (proj2 (Nat.ltb_ge i i)) in Hi' by lia.
      destruct Hi' as (xi & Hf & Hai). apply filled_self in Hf; [|lia]. subst xi.
      rewrite (vget_ok _ _ _ Hai). cbn [mbind res_bind].
      rewrite vset_ok by lia. cbn [mbind res_bind].
      pose proof (lowbit_pos i ltac:(lia)) as Hlp. pose proof (lowbit_le i) as Hle.
      assert (add (P (slice a (i - lowbit i) (i - 1))) x = P (slice a (i - lowbit i) i)) as ->.
      { rewrite <- (P_snoc a _ (i - 1)); [|lia|exact Hx']. f_equal. f_equal. lia. }
      set (v := P (slice a (i - lowbit i) i)).
      set (j := i + lowbit i).
      assert (forall ary', length ary' = n ->
         (forall k, 1 <= k <= n -> k <> i -> k <> j -> ary' !! (k - 1) = ary !! (k - 1)) ->
         ary' !! (i - 1) = Some v ->
         (j <= n -> ary' !! (j - 1) = Some (P (slice a (j - lowbit j) i))) ->
         length ary' = n /\ forall k, 1 <= k <= n ->
           if k <? i + 1 then ary' !! (k - 1) = Some (P (slice a (k - lowbit k) k))
           else exists x, filled (i + 1) k x /\ ary' !! (k - 1) = Some (P (slice a (k - lowbit k) x))) as Hgen.
      { intros ary' Hl' Hoth Hati Hatj. split; [exact Hl'|]. intros k Hk.
        destruct (decide (k = i)) as [->|Hki].
        { destruct (Nat.ltb_spec i (i + 1)); [exact Hati|lia]. }
        destruct (decide (k = j)) as [->|Hkj].
        { destruct (Nat.ltb_spec j (i + 1)); [unfold j in *; lia|]. exists i.
          split; [apply filled_step_parent; lia|apply Hatj; lia]. }
        specialize (Hnode k Hk). rewrite Hoth by assumption.
        destruct (Nat.ltb_spec k i), (Nat.ltb_spec k (i + 1)); try lia; [exact Hnode|].
        destruct Hnode as (xk & Hf & Hak). exists xk. split; [|exact Hak].
        apply filled_step_other; [lia|exact Hkj|exact Hf]. }
      destruct (Nat.leb_spec j n) as [Hjn|Hjn].
      + rewrite (vget_ok _ (i - 1) v) by (rewrite list_lookup_insert by lia; reflexivity).
        cbn [mbind res_bind].
        pose proof (Hnode j ltac:(unfold j in *; lia)) as Hj'.
        rewrite (proj2 (Nat.ltb_ge j i)) in Hj' by (unfold j; lia).
        destruct Hj' as (xj & Hfj & Haj).
        pose proof (filled_ge i j xj ltac:(unfold j; lia) Hfj) as Hge.
        apply filled_parent in Hfj; [|lia]. subst xj.
        rewrite (vget_ok _ (j - 1) (P (slice a (j - lowbit j) (i - lowbit i))))
          by (rewrite list_lookup_insert_ne by (unfold j; lia); exact Haj).
        cbn [mbind res_bind]. rewrite vset_ok by (rewrite insert_length; lia).
        eexists; split; [reflexivity|]. apply Hgen.
        * rewrite !insert_length. exact Hlen.
        * intros k Hk Hki Hkj. rewrite !list_lookup_insert_ne by lia. reflexivity.
        * rewrite list_lookup_insert_ne by (unfold j; lia). apply list_lookup_insert. lia.
        * intros _. rewrite list_lookup_insert by (rewrite insert_length; lia).
          f_equal. unfold v. rewrite <- (mprod_app _ _ L), slice_app by lia. reflexivity.
      + eexists; split; [reflexivity|]. apply Hgen.
        * rewrite insert_length. exact Hlen.
        * intros k Hk Hki Hkj. rewrite list_lookup_insert_ne by lia. reflexivity.
        * apply list_lookup_insert. lia.
        * lia.
    - cbn [fw_ary fw_new]. rewrite Hr. cbn [mbind res_bind]. eexists; split; [reflexivity|].
      constructor; cbn [fw_n fw_ary]; [reflexivity|exact Hlen|].
      intros j Hj. specialize (Hnode j Hj). destruct (Nat.ltb_spec j (S n)); [exact Hnode|unfold n in *; lia].
  Qed.

  Section Reads.
    Context (t : fenwick T) (a : list T) (I : FInv t a).
    Local Notation n := (length a).

    Lemma pref_ok idx (C : forall x y, add x y = add y x) : idx <= n ->
      fw_pref zero add t idx = Ok (P (slice a 0 idx)).
    Proof.
      intros Hidx. unfold fw_pref.
      match goal with |- rloop _ ?st _ = _ => set (step := st) end.
      destruct (rloop_inv_idx (fun m '(i, sum) => m = i /\ i <= n /\ add (P (slice a 0 i)) sum = P (slice a 0 idx))
        (fun r => r = P (slice a 0 idx)) step) with (fuel := idx + 1) (m := idx) (s := (idx, zero))
        as (r & Hr & ->); [|split; [|split; [|apply (ml_idr _ _ L)]]; lia|lia|exact Hr].
      intros m [i sum] (-> & Hi & Hsum). unfold step. destruct (Nat.ltb_spec 0 i) as [H0|H0].
      - rewrite (vget_ok _ _ _ (fi_node _ _ I i ltac:(lia))). cbn [mbind res_bind].
        rewrite land_pred by lia. eexists; split; [reflexivity|]. cbn.
        pose proof (lowbit_pos i H0). pose proof (lowbit_le i).
        exists (i - lowbit i). split; [lia|]. split; [reflexivity|]. split; [lia|].
        rewrite <- Hsum, <- (slice_app a 0 (i - lowbit i) i), (mprod_app _ _ L) by lia.
        rewrite (C sum). rewrite (ml_assoc _ _ L). reflexivity.
      - assert (i = 0) as -> by lia. eexists; split; [reflexivity|]. cbn.
        rewrite slice_nil in Hsum by lia. rewrite (ml_idl _ _ L) in Hsum. exact Hsum.
    Qed.

    Lemma pref_panic idx : n < idx -> fw_pref zero add t idx = Panic.
    Proof.
      intros H. unfold fw_pref. replace (idx + 1) with (S idx) by lia. cbn [rloop].
      destruct (Nat.ltb_spec 0 idx); [|lia].
      rewrite vget_panic; [reflexivity|]. rewrite (fi_len _ _ I). lia.
    Qed.

    Lemma P_update l r p x y v : l <= p < r -> r <= n -> (forall x y, add x y = add y x) ->
      a !! p = Some x -> y = add x v ->
      P (slice (<[p := y]> a) l r) = add (P (slice a l r)) v.
    Proof.
      intros Hp Hr C Hx ->.
      assert (forall b, length b = n -> forall z, b !! p = Some z ->
         P (slice b l r) = add (P (slice b l p)) (add z (P (slice b (p + 1) r)))) as Hdec.
      { intros b Hb z Hz. rewrite <- (slice_app b l p r), <- (slice_app b p (p + 1) r) by lia.
        rewrite !(mprod_app _ _ L), (slice_single b p z Hz), (mprod_single _ _ L). reflexivity. }
      rewrite (Hdec a eq_refl x Hx).
      rewrite (Hdec (<[p:=add x v]> a) (insert_length _ _ _) (add x v)) by (apply list_lookup_insert; lia).
      rewrite (slice_ext (<[p:=add x v]> a) a l p)
        by (intros i Hi; apply list_lookup_insert_ne; lia).
      rewrite (slice_ext (<[p:=add x v]> a) a (p + 1) r)
        by (intros i Hi; apply list_lookup_insert_ne; lia).
      rewrite <- !(ml_assoc _ _ L). do 2 f_equal. apply C.
    Qed.

    Lemma add_ok p u (C : forall x y, add x y = add y x)
      (HU : forall x u, addu x u = add x (addu zero u)) :
      exists t', fw_add addu t p u = Ok t' /\
        FInv t' (match a !! p with Some x => <[p := addu x u]> a | None => a end).
    Proof.
      unfold fw_add. rewrite (fi_n _ _ I).
      set (a' := match a !! p with Some x => <[p := addu x u]> a | None => a end).
      assert (length a' = n) as La' by (unfold a'; destruct (a !! p); rewrite ?insert_length; reflexivity).
      assert (forall j, 1 <= j <= n -> covers j (p + 1) ->
        P (slice a' (j - lowbit j) j) = addu (P (slice a (j - lowbit j) j)) u) as Hin.
      { intros j Hj Hc. unfold covers in Hc. unfold a'.
        destruct (lookup_lt_is_Some_2 a p ltac:(lia)) as [x Hx]. rewrite Hx.
        rewrite (HU (P _)). apply (P_update _ _ p x); [lia|lia|exact C|exact Hx|apply HU]. }
      assert (forall j, 1 <= j <= n -> ~ covers j (p + 1) ->
        slice a' (j - lowbit j) j = slice a (j - lowbit j) j) as Hout.
      { intros j Hj Hc. unfold covers in Hc. unfold a'.
        destruct (a !! p) as [x|]; [|reflexivity].
        apply slice_ext. intros i Hi. apply list_lookup_insert_ne. lia. }
      assert (forall j i, covers j i \/ ~ covers j i) as Hdec by (intros; unfold covers; lia).
      match goal with |- context [rloop _ ?st _] => set (step := st) end.
      destruct (rloop_inv_idx (fun m '(i, ary) => m = n + 1 - i /\ p + 1 <= i /\ length ary = n /\
          (forall j, 1 <= j <= n -> (covers j (p + 1) /\ i <= j <-> covers j i)) /\
          (forall j, 1 <= j <= n -> (covers j (p + 1) /\ j < i ->
              ary !! (j - 1) = Some (P (slice a' (j - lowbit j) j))) /\
             (~ (covers j (p + 1) /\ j < i) -> ary !! (j - 1) = Some (P (slice a (j - lowbit j) j)))))
        (fun ary => FInv (Fenwick n ary) a') step)
        with (fuel := n + 2) (m := n + 1 - (p + 1)) (s := (p + 1, fw_ary t)) as (ary & Hr & HF).
      - intros m [i ary] (-> & Hpi & Hlen & Hch & Hval). unfold step.
        destruct (Nat.leb_spec i n) as [Hin'|Hin'].
        + pose proof (lowbit_pos i ltac:(lia)) as Hl.
          destruct (Hval i ltac:(lia)) as [_ Hvi]. rewrite (vget_ok _ _ _ (Hvi ltac:(lia))).
          cbn [mbind res_bind]. rewrite vset_ok by lia. cbn [mbind res_bind].
          eexists; split; [reflexivity|]. cbn. exists (n + 1 - (i + lowbit i)). split; [lia|].
          split; [reflexivity|]. split; [lia|]. split; [rewrite insert_length; exact Hlen|].
          assert (covers i (p + 1)) as Hci by (apply Hch; [lia|]; apply covers_self; lia).
          assert (forall j, 1 <= j <= n -> (covers j (p + 1) /\ i + lowbit i <= j <-> covers j (i + lowbit i))) as Hch'.
          { intros j Hj. rewrite <- (covers_next i j) by lia. rewrite <- Hch by lia. split.
            - intros [H1 H2]. split; [split; [exact H1|lia]|lia].
            - intros [[H1 H2] H3]. split; [exact H1|].
              assert (covers j (i + lowbit i)) as Hc; [|unfold covers in Hc; lia].
              apply covers_next_1; [lia|lia| |exact H3]. apply (Hch j Hj); auto. }
          split; [exact Hch'|].
          intros j Hj. destruct (Hval j Hj) as [Hv1 Hv2].
          destruct (decide (j = i)) as [->|Hne].
          { split; [|intros Hno; exfalso; apply Hno; split; [exact Hci|lia]].
            intros _. rewrite list_lookup_insert by lia. f_equal. symmetry. apply Hin; [lia|exact Hci]. }
          rewrite list_lookup_insert_ne by lia. split.
          * intros [H1 H2]. apply Hv1. split; [exact H1|].
            destruct (decide (j < i)) as [|Hge]; [assumption|exfalso].
            assert (covers j i) as H3 by (apply Hch; [lia|]; split; [exact H1|lia]).
            assert (covers j (i + lowbit i)) as Hc by (apply covers_next_1; [lia|lia|exact H3|exact Hne]).
            unfold covers in Hc. lia.
          * intros Hno. apply Hv2. intros [H1 H2]. apply Hno. split; [exact H1|lia].
        + eexists; split; [reflexivity|]. cbn. constructor; cbn [fw_n fw_ary]; rewrite ?La'; [reflexivity|exact Hlen|].
          intros j Hj. destruct (Hval j Hj) as [Hv1 Hv2].
          destruct (Hdec j (p + 1)) as [Hc|Hc].
          * apply Hv1. split; [exact Hc|lia].
          * rewrite Hout by assumption. apply Hv2. tauto.
      - split; [reflexivity|]. split; [lia|]. split; [apply (fi_len _ _ I)|]. split.
        + intros j Hj. unfold covers. lia.
        + intros j Hj. split; [unfold covers; lia|]. intros _. apply (fi_node _ _ I). exact Hj.
      - lia.
      - rewrite Hr. cbn [mbind res_bind]. eauto.
    Qed.

    (** ** partition_point *)
    Lemma lowbit_pos_bit i pos : (exists q, pos = 2 ^ (i + 1) * q) -> lowbit (pos + 2 ^ i) = 2 ^ i.
    Proof.
      intros [q ->]. rewrite Nat.add_1_r, Nat.pow_succ_r'.
      replace (2 * 2 ^ i * q + 2 ^ i) with (2 ^ i * (2 * q + 1)) by lia. apply lowbit_decomp.
    Qed.

    Lemma partition_point_ok pred : 0 < n -> (Z.of_nat n < 2 ^ 64)%Z ->
      exists r, fw_partition_point zero add t pred = Ok r /\ r <= n /\
        (0 < r -> pred (P (slice a 0 r)) = true) /\
        (r < n -> pred (P (slice a 0 (r + 1))) = false).
    Proof.
      intros Hn Hn64. unfold fw_partition_point. rewrite (fi_n _ _ I), lg_spec by lia.
      cbn [mbind res_bind]. set (top := Z.to_nat (Z.log2 (Z.of_nat n))).
      assert (n < 2 ^ (top + 1)) as Htop.
      { destruct (Z.log2_spec (Z.of_nat n)) as [_ H]; [lia|].
        apply Nat2Z.inj_lt. rewrite Nat2Z.inj_pow, Nat2Z.inj_add. unfold top.
        rewrite Z2Nat.id by apply Z.log2_nonneg. exact H. }
      unfold range_incl.
      match goal with |- context [rfor _ ?b _] => set (body := b) end.
      destruct (rfor_rev_range_inv (fun i '(pos, sum) => pos <= n /\ sum = P (slice a 0 pos) /\
          (exists q, pos = 2 ^ i * q) /\ (0 < pos -> pred (P (slice a 0 pos)) = true) /\
          (pos + 2 ^ i <= n -> pred (P (slice a 0 (pos + 2 ^ i))) = false))
         0 (S top) body (0, zero)) as ([pos sum] & Hr & Hpos & -> & _ & Ht & Hf).
      - lia.
      - split; [lia|]. split; [rewrite slice_nil by lia; reflexivity|].
        split; [exists 0; lia|]. split; [lia|]. replace (S top) with (top + 1) by lia. intros; exfalso; lia.
      - intros i [pos sum] Hi (Hpos & -> & Hq & Ht & Hf). unfold body.
        pose proof (pow2_gt0 i).
        assert (2 ^ (i + 1) = 2 * 2 ^ i) as E by (rewrite Nat.add_1_r; apply Nat.pow_succ_r').
        destruct (Nat.leb_spec (pos + 2 ^ i) n) as [Hle|Hgt].
        + pose proof (fi_node _ _ I (pos + 2 ^ i) ltac:(lia)) as Hnode.
          rewrite lowbit_pos_bit in Hnode by exact Hq.
          replace (pos + 2 ^ i - 2 ^ i) with pos in Hnode by lia.
          rewrite (vget_ok _ _ _ Hnode). cbn [mbind res_bind].
          rewrite <- (mprod_app _ _ L), slice_app by lia.
          destruct Hq as [q Hq].
          destruct (pred (P (slice a 0 (pos + 2 ^ i)))) eqn:Hp; (eexists; split; [reflexivity|]).
          * split; [lia|]. split; [reflexivity|]. split; [exists (2 * q + 1); rewrite Hq, E; lia|].
            split; [auto|]. intros Hle2. rewrite E in Hf.
            replace (pos + 2 ^ i + 2 ^ i) with (pos + 2 * 2 ^ i) in * by lia. apply Hf. lia.
          * split; [lia|]. split; [reflexivity|]. split; [exists (2 * q); rewrite Hq, E; lia|].
            split; [exact Ht|]. auto.
        + destruct Hq as [q Hq]. eexists; split; [reflexivity|].
          split; [lia|]. split; [reflexivity|]. split; [exists (2 * q); rewrite Hq, E; lia|].
          split; [exact Ht|]. lia.
      - rewrite Hr. cbn [mbind res_bind]. exists pos. split; [reflexivity|]. split; [exact Hpos|].
        split; [exact Ht|]. rewrite Nat.pow_0_r in Hf. intros H. apply Hf. lia.
    Qed.

    Lemma partition_point_partitioned pred k : 0 < n -> (Z.of_nat n < 2 ^ 64)%Z -> k <= n ->
      (forall i, i < n -> pred (prefix_sum zero add a i) = (i <? k)) ->
      fw_partition_point zero add t pred = Ok k.
    Proof.
      intros Hn Hn64 Hk Hpart.
      destruct (partition_point_ok pred Hn Hn64) as (r & -> & Hr & Ht & Hf). f_equal.
      unfold prefix_sum in Hpart.
      destruct (Nat.lt_trichotomy r k) as [Hlt|[Heq|Hgt]]; [|exact Heq|]; exfalso.
      - specialize (Hf ltac:(lia)). rewrite Hpart in Hf by lia. apply Nat.ltb_ge in Hf. lia.
      - specialize (Ht ltac:(lia)). replace r with (r - 1 + 1) in Ht by lia.
        rewrite Hpart in Ht by lia. apply Nat.ltb_lt in Ht. lia.
    Qed.

    Lemma partition_point_empty pred : n = 0 -> fw_partition_point zero add t pred = Panic.
    Proof. intros H. unfold fw_partition_point. rewrite (fi_n _ _ I), H. reflexivity. Qed.
  End Reads.

  Context (C : forall x y, add x y = add y x) (HU : forall x u, addu x u = add x (addu zero u)).

  Lemma fw_step_refines t a o : FInv t a ->
    match fw_spec_step zero add sub addu a o with
    | Ok (a', out) => exists t', fw_step zero add sub addu t o = Ok (t', out) /\ FInv t' a'
    | Panic => fw_step zero add sub addu t o = Panic
    | Diverge => False
    end.
  Proof.
    intros I. destruct o as [p u|i|l r]; cbn [fw_spec_step fw_step].
    - destruct (add_ok t a I p u C HU) as (t' & -> & I'). cbn [mbind res_bind]. eauto.
    - destruct (Nat.leb_spec i (length a)).
      + rewrite (pref_ok t a I) by assumption. cbn [mbind res_bind]. eauto.
      + rewrite (pref_panic t a I) by assumption. reflexivity.
    - unfold fw_sum. destruct (Nat.leb_spec l (length a)), (Nat.leb_spec r (length a)); cbn [andb].
      + rewrite !(pref_ok t a I) by assumption. cbn [mbind res_bind]. eauto.
      + rewrite (pref_panic t a I r) by assumption. reflexivity.
      + rewrite (pref_ok t a I r) by assumption. cbn [mbind res_bind].
        rewrite (pref_panic t a I l) by assumption. reflexivity.
      + rewrite (pref_panic t a I r) by assumption. reflexivity.
  Qed.

  Lemma fw_run_refines ops : forall t a, FInv t a ->
    match run (fw_spec_step zero add sub addu) a ops with
    | Ok (a', outs) => exists t', run (fw_step zero add sub addu) t ops = Ok (t', outs) /\ FInv t' a'
    | Panic => run (fw_step zero add sub addu) t ops = Panic
    | Diverge => False
    end.
  Proof.
    induction ops as [|o ops IH]; intros t a I; cbn [run]; [eauto|].
    pose proof (fw_step_refines t a o I) as Hs.
    destruct (fw_spec_step zero add sub addu a o) as [[a1 out]| |]; [|rewrite Hs; reflexivity|contradiction].
    destruct Hs as (t1 & -> & I1). cbn [mbind res_bind].
    specialize (IH t1 a1 I1).
    destruct (run (fw_spec_step zero add sub addu) a1 ops) as [[a2 outs]| |]; [|rewrite IH; reflexivity|contradiction].
    destruct IH as (t2 & -> & I2). cbn [mbind res_bind]. eauto.
  Qed.
End Proof.
