(** Property theorems for src/data_structure/fenwick_tree.rs when additions and subtractions may panic (C65). *)
From Verif Require Import Prelude IntModel UtilModel ArraySpec FenwickSpec FenwickModel FenwickProof FenwickProps PartialOps
  FenwickChkModel FenwickChkProof SegtreeChkProps.

(** The plain array: `data[i] += u`, sums of ranges, and one subtraction (that may panic) for sum(l, r). *)
Definition fwc_spec_step {T U} (zero : T) (add : T -> T -> T) (subc : T -> T -> res T) (addu : T -> U -> T)
  (a : list T) (o : fw_op T U) : res (list T * fw_out T) :=
  match o with
  | FwAdd i u => Ok (match a !! i with Some x => <[i := addu x u]> a | None => a end, FwUnit)
  | FwPref i => if i <=? length a then Ok (a, FwVal (mprod zero add (slice a 0 i))) else Panic
  | FwSum l r =>
      if (l <=? length a) && (r <=? length a)
      then x ← subc (mprod zero add (slice a 0 r)) (mprod zero add (slice a 0 l)); Ok (a, FwVal x)
      else Panic
  end.

Section Statements.
  Context {T U : Type} (zero : T) (add : T -> T -> T) (addu : T -> U -> T) (L : fw_laws zero add addu).
  Context (good : T -> Prop) (addc subc : T -> T -> res T) (adduc : T -> U -> res T).
  Context (A : agrees good add addc) (AU : agrees good addu adduc).
  Local Notation stepc := (fwc_step zero addc subc adduc).
  Local Notation specc := (fwc_spec_step zero add subc addu).

  Lemma fwc_step_refines t a o : FInv zero add t a -> ranges_good zero add good a ->
    (forall a' out, specc a o = Ok (a', out) -> ranges_good zero add good a') ->
    match specc a o with
    | Ok (a', out) => exists t', stepc t o = Ok (t', out) /\ FInv zero add t' a'
    | Panic => stepc t o = Panic
    | Diverge => exists l r, subc l r = Diverge
    end.
  Proof.
    intros I G G'. destruct L as [LM LC LU].
    assert (forall i, fwc_pref zero addc t i = fw_pref zero add t i) as Hp.
    { intros i. apply (fwc_pref_same zero add LM LC good addc A t a I). intros l r H1 H2. apply G. lia. }
    destruct o as [p u|i|l r]; cbn [fwc_spec_step fwc_step].
    - rewrite (fwc_add_same zero add addu LM LC LU good adduc AU t a I p u (G' _ FwUnit eq_refl)).
      destruct (add_ok zero add add addu LM t a I p u LC LU) as (t' & -> & I'). cbn [mbind res_bind]. eauto.
    - rewrite Hp. destruct (Nat.leb_spec i (length a)).
      + rewrite (pref_ok zero add LM t a I) by assumption. cbn [mbind res_bind]. eauto.
      + rewrite (pref_panic zero add t a I) by assumption. reflexivity.
    - unfold fwc_sum. rewrite !Hp. destruct (Nat.leb_spec l (length a)), (Nat.leb_spec r (length a)); cbn [andb].
      + rewrite !(pref_ok zero add LM t a I) by assumption. cbn [mbind res_bind].
        destruct (subc _ _) eqn:E; cbn [mbind res_bind]; eauto.
      + rewrite (pref_panic zero add t a I r) by assumption. reflexivity.
      + rewrite (pref_ok zero add LM t a I r) by assumption. cbn [mbind res_bind].
        rewrite (pref_panic zero add t a I l) by assumption. reflexivity.
      + rewrite (pref_panic zero add t a I r) by assumption. reflexivity.
  Qed.

  Lemma fwc_run_refines (D : forall x y, subc x y <> Diverge) ops : forall t a, FInv zero add t a ->
    always specc (ranges_good zero add good) a ops ->
    match run specc a ops with
    | Ok (a', outs) => exists t', run stepc t ops = Ok (t', outs) /\ FInv zero add t' a' /\ ranges_good zero add good a'
    | Panic => run stepc t ops = Panic
    | Diverge => False
    end.
  Proof.
    induction ops as [|o ops IH]; intros t a I H; cbn [run]; [exists t; split; [reflexivity|]; split; [exact I|exact (always_hd _ _ _ _ H)]|].
    destruct H as [G H]. pose proof (fwc_step_refines t a o I G) as R.
    assert (forall a' out, specc a o = Ok (a', out) -> ranges_good zero add good a') as G'.
    { intros a' out E. rewrite E in H. exact (always_hd _ _ _ _ H). }
    specialize (R G'). destruct (specc a o) as [[a1 out]| |]; [|rewrite R; reflexivity|destruct R as (x & y & R); destruct (D x y R)].
    destruct R as (t1 & -> & I1). cbn [mbind res_bind]. specialize (IH t1 a1 I1 H).
    destruct (run specc a1 ops) as [[a2 outs]| |]; [|rewrite IH; reflexivity|contradiction].
    destruct IH as (t2 & -> & I2 & G2). cbn [mbind res_bind]. eauto.
  Qed.
End Statements.

(** If every range of the plain array has a good sum at every moment of the history, no addition inside the tree panics: the
    history answers like the plain array, and the only checked operation left is the one subtraction of sum(l, r). *)
Theorem C65_fenwick_checked : forall {T U : Type} (zero : T) (add : T -> T -> T) (addu : T -> U -> T), fw_laws zero add addu ->
  forall (good : T -> Prop) (addc subc : T -> T -> res T) (adduc : T -> U -> res T),
  agrees good add addc -> agrees good addu adduc -> (forall x y, subc x y <> Diverge) ->
  forall (a : list T) (ops : list (fw_op T U)), always (fwc_spec_step zero add subc addu) (ranges_good zero add good) a ops ->
  fmap snd (t ← fwc_from zero addc a; run (fwc_step zero addc subc adduc) t ops)
  = fmap snd (run (fwc_spec_step zero add subc addu) a ops).
Proof.
  intros T U zero add addu L good addc subc adduc A AU D a ops H.
  rewrite (fwc_from_same zero add (fl_monoid _ _ _ L) good addc A a (always_hd _ _ _ _ H)).
  destruct (fw_from_inv zero add (fl_monoid _ _ _ L) a) as (t & -> & I). cbn [mbind res_bind].
  pose proof (fwc_run_refines zero add addu L good addc subc adduc A AU D ops t a I H) as R.
  destruct (run (fwc_spec_step zero add subc addu) a ops) as [[a' outs]| |]; [|rewrite R; reflexivity|contradiction].
  destruct R as (t' & -> & _). reflexivity.
Qed.
Print Assumptions C65_fenwick_checked.

(** The searches on every tree such a history leaves. *)
Theorem C65_partition_point_checked : forall {T U : Type} (zero : T) (add : T -> T -> T) (addu : T -> U -> T), fw_laws zero add addu ->
  forall (good : T -> Prop) (addc subc : T -> T -> res T) (adduc : T -> U -> res T),
  agrees good add addc -> agrees good addu adduc -> (forall x y, subc x y <> Diverge) ->
  forall (a0 : list T) (ops : list (fw_op T U)) t outs a outs',
  always (fwc_spec_step zero add subc addu) (ranges_good zero add good) a0 ops ->
  (t ← fwc_from zero addc a0; run (fwc_step zero addc subc adduc) t ops) = Ok (t, outs) ->
  run (fwc_spec_step zero add subc addu) a0 ops = Ok (a, outs') ->
  0 < length a -> (Z.of_nat (length a) < 2 ^ 64)%Z ->
  forall pred, exists r, fwc_partition_point zero addc t pred = Ok r /\ r <= length a /\
      (0 < r -> pred (prefix_sum zero add a (r - 1)) = true) /\
      (r < length a -> pred (prefix_sum zero add a r) = false).
Proof.
  intros T U zero add addu L good addc subc adduc A AU D a0 ops t outs a outs' H Ht Ha Hn H64 pred.
  rewrite (fwc_from_same zero add (fl_monoid _ _ _ L) good addc A a0 (always_hd _ _ _ _ H)) in Ht.
  destruct (fw_from_inv zero add (fl_monoid _ _ _ L) a0) as (t0 & E & I). rewrite E in Ht. cbn [mbind res_bind] in Ht.
  pose proof (fwc_run_refines zero add addu L good addc subc adduc A AU D ops t0 a0 I H) as R. rewrite Ha in R.
  destruct R as (t' & R & I' & G). rewrite Ht in R. injection R as <- <-.
  rewrite (fwc_partition_same zero add (fl_monoid _ _ _ L) good addc A t a I' pred G H64).
  destruct (partition_point_ok zero add (fl_monoid _ _ _ L) t a I' pred Hn H64) as (r & Hr & Hle & H1 & H2).
  exists r. split; [exact Hr|]. split; [exact Hle|]. unfold prefix_sum. split; [|exact H2].
  intros H0. replace (r - 1 + 1) with r by lia. apply H1. exact H0.
Qed.
Print Assumptions C65_partition_point_checked.

(** search(target) on every such tree is the number of prefix sums below target, when they are sorted around it. *)
Theorem C65_search_checked : forall {T U : Type} (zero : T) (add : T -> T -> T) (addu : T -> U -> T), fw_laws zero add addu ->
  forall (good : T -> Prop) (addc subc : T -> T -> res T) (adduc : T -> U -> res T),
  agrees good add addc -> agrees good addu adduc -> (forall x y, subc x y <> Diverge) ->
  forall (a0 : list T) (ops : list (fw_op T U)) t outs a outs',
  always (fwc_spec_step zero add subc addu) (ranges_good zero add good) a0 ops ->
  (t ← fwc_from zero addc a0; run (fwc_step zero addc subc adduc) t ops) = Ok (t, outs) ->
  run (fwc_spec_step zero add subc addu) a0 ops = Ok (a, outs') ->
  0 < length a -> (Z.of_nat (length a) < 2 ^ 64)%Z ->
  forall (lt : T -> T -> bool) target k, k <= length a -> (forall i, i < length a -> lt (prefix_sum zero add a i) target = (i <? k)) ->
  fwc_search zero addc lt t target = Ok k.
Proof.
  intros T U zero add addu L good addc subc adduc A AU D a0 ops t outs a outs' H Ht Ha Hn H64 lt target k Hk Hlt.
  destruct (C65_partition_point_checked zero add addu L good addc subc adduc A AU D a0 ops t outs a outs' H Ht Ha Hn H64 (fun x => lt x target)) as (r & E & Hr & H1 & H2).
  unfold fwc_search. rewrite E. f_equal. destruct (lt_eq_lt_dec r k) as [[Hlk|Heq]|Hgt]; [|exact Heq|].
  - specialize (H2 ltac:(lia)). rewrite Hlt in H2 by lia. apply Nat.ltb_ge in H2. lia.
  - specialize (H1 ltac:(lia)). rewrite Hlt in H1 by lia. apply Nat.ltb_lt in H1. lia.
Qed.
Print Assumptions C65_search_checked.

(** Whatever the values are: over operations that compute or panic, a history answers like the plain array or panics. *)
Theorem C65_fenwick_never_wrong : forall {T U : Type} (zero : T) (add sub : T -> T -> T) (addu : T -> U -> T), fw_laws zero add addu ->
  forall (addc subc : T -> T -> res T) (adduc : T -> U -> res T), or_panics add addc -> or_panics sub subc -> or_panics addu adduc ->
  forall (a : list T) (ops : list (fw_op T U)),
  let answers := fmap snd (t ← fwc_from zero addc a; run (fwc_step zero addc subc adduc) t ops) in
  answers = fmap snd (run (fw_spec_step zero add sub addu) a ops) \/ answers = Panic.
Proof.
  intros T U zero add sub addu L addc subc adduc O OS OU a ops answers. rewrite <- (fenwick_refines zero add sub addu L a ops).
  apply le_fmap, le_bind; [apply fwc_le_from; exact O|]. intros t. apply le_run. intros s o. apply fwc_le_step; assumption.
Qed.
Print Assumptions C65_fenwick_never_wrong.

(** ** Machine integers: `+`, `+=` and `-` of type T *)
Lemma iadd_agrees T : agrees (in_ty T) Z.add (iadd T).
Proof. intros x y H. apply chk_ok. exact H. Qed.

Lemma chk_or_panics T (op : Z -> Z -> Z) : or_panics op (fun x y => chk T (op x y)).
Proof.
  intros x y. destruct (fitsb T (op x y)) eqn:E; [left; apply chk_ok; apply fitsb_in; exact E|right; apply chk_panic].
  intros H. apply fitsb_in in H. congruence.
Qed.

(** sum(l, r) with l <= r of a tree of machine integers is the sum of the range and does not panic; with l > r it is minus the
    sum of [r, l), and panics when that is not a value of the type (for an unsigned type: unless it is 0). *)
Lemma sum_value (a : list Z) l r : l <= length a -> r <= length a ->
  (mprod 0 Z.add (slice a 0 r) - mprod 0 Z.add (slice a 0 l) = if (l <=? r)%nat then mprod 0 Z.add (slice a l r) else - mprod 0 Z.add (slice a r l))%Z.
Proof.
  intros Hl Hr. destruct (Nat.leb_spec l r).
  - rewrite <- (slice_app a 0 l r), (mprod_app _ _ zadd_laws) by lia. lia.
  - rewrite <- (slice_app a 0 r l), (mprod_app _ _ zadd_laws) by lia. lia.
Qed.

(** The plain array of machine integers: sum(l, r) by the sum of the range between. *)
Definition fwi_spec_step (T : ity) (a : list Z) (o : fw_op Z Z) : res (list Z * fw_out Z) :=
  match o with
  | FwAdd i u => Ok (match a !! i with Some x => <[i := (x + u)%Z]> a | None => a end, FwUnit)
  | FwPref i => if i <=? length a then Ok (a, FwVal (mprod 0 Z.add (slice a 0 i))%Z) else Panic
  | FwSum l r =>
      if (l <=? length a) && (r <=? length a)
      then if l <=? r then Ok (a, FwVal (mprod 0 Z.add (slice a l r))%Z)
           else if fitsb T (- mprod 0 Z.add (slice a r l))%Z then Ok (a, FwVal (- mprod 0 Z.add (slice a r l))%Z) else Panic
      else Panic
  end.

Theorem C65_fenwick_integers : forall T (a : list Z) (ops : list (fw_op Z Z)),
  always (fwi_spec_step T) (ranges_good 0%Z Z.add (in_ty T)) a ops ->
  fmap snd (t ← fwc_from 0%Z (iadd T) a; run (fwc_step 0%Z (iadd T) (isub T) (iadd T)) t ops)
  = fmap snd (run (fwi_spec_step T) a ops).
Proof.
  intros T a ops H.
  assert (HD : forall x y, isub T x y <> Diverge).
  { intros x y. unfold isub. destruct (chk_or_panics T Z.sub x y) as [E|E]; cbn in E; rewrite E; discriminate. }
  assert (E : forall b o, ranges_good 0%Z Z.add (in_ty T) b -> fwc_spec_step 0%Z Z.add (isub T) Z.add b o = fwi_spec_step T b o).
  { intros b o G. destruct o as [i u|i|l r]; cbn [fwc_spec_step fwi_spec_step]; try reflexivity.
    destruct (Nat.leb_spec l (length b)), (Nat.leb_spec r (length b)); cbn [andb]; try reflexivity.
    unfold isub. rewrite sum_value by assumption. destruct (Nat.leb_spec l r).
    - rewrite chk_ok by (apply G; lia). reflexivity.
    - destruct (fitsb T _) eqn:F; [rewrite chk_ok by (apply fitsb_in; exact F); reflexivity|].
      rewrite chk_panic; [reflexivity|]. intros F'. apply fitsb_in in F'. congruence. }
  assert (forall ops b, always (fwi_spec_step T) (ranges_good 0%Z Z.add (in_ty T)) b ops ->
     always (fwc_spec_step 0%Z Z.add (isub T) Z.add) (ranges_good 0%Z Z.add (in_ty T)) b ops /\
     run (fwc_spec_step 0%Z Z.add (isub T) Z.add) b ops = run (fwi_spec_step T) b ops) as Hspec.
  { clear - E. induction ops as [|o ops IH]; intros b H; [split; [exact H|reflexivity]|]. destruct H as [G H].
    cbn [always run]. rewrite (E b o G). destruct (fwi_spec_step T b o) as [[b1 out]| |]; [|split; [auto|reflexivity]..].
    destruct (IH b1 H) as [H1 H2]. cbn [mbind res_bind]. rewrite H2. split; [auto|reflexivity]. }
  destruct (Hspec ops a H) as [H1 H2]. rewrite <- H2.
  apply C65_fenwick_checked with (good := in_ty T); [apply Z_fw_laws|apply iadd_agrees|apply iadd_agrees|exact HD|exact H1].
Qed.
Print Assumptions C65_fenwick_integers.

Lemma fwc_pref_out {T} (zero : T) add addc t a i : FInv zero add t a -> length a < i -> fwc_pref zero addc t i = Panic.
Proof.
  intros I H. unfold fwc_pref. replace (i + 1) with (S i) by lia. cbn [rloop]. destruct (Nat.ltb_spec 0 i); [|lia].
  rewrite vget_panic by (rewrite (fi_len _ _ _ _ I); lia). reflexivity.
Qed.

Lemma fwc_pref_in T t i x : in_ty T 0%Z -> fwc_pref 0%Z (iadd T) t i = Ok x -> in_ty T x.
Proof.
  intros H0. unfold fwc_pref. generalize (i + 1). intros fuel. revert i H0. generalize 0%Z. intros s. revert s.
  induction fuel as [|fuel IH]; intros s i Hs E; [discriminate|]. cbn [rloop] in E.
  destruct (0 <? i); cbn [mbind res_bind] in E; [|injection E as <-; exact Hs].
  destruct (vget (fw_ary t) (i - 1)) as [y| |]; cbn [mbind res_bind] in E; try discriminate.
  destruct (iadd T s y) as [z| |] eqn:Ez; cbn [mbind res_bind] in E; try discriminate.
  apply chk_inv in Ez as [-> Hz]. apply (IH _ _ Hz E).
Qed.

(** Unsigned integers: on every tree that a history leaves, pref(i) panics exactly when i is too large or the prefix sum is not a
    value of the type; it never returns a wrapped or partial sum. *)
Theorem C65_fenwick_unsigned_pref : forall T, T ∈ prim_types -> it_signed T = false -> forall (a0 : list Z) (ops : list (fw_op Z Z)) t outs,
  Forall (in_ty T) a0 -> Forall (fun o => match o with FwAdd _ u => in_ty T u | _ => True end) ops ->
  (t ← fwc_from 0%Z (iadd T) a0; run (fwc_step 0%Z (iadd T) (isub T) (iadd T)) t ops) = Ok (t, outs) ->
  exists a, run (fw_spec_step 0%Z Z.add Z.sub Z.add) a0 ops = Ok (a, outs) /\
    forall i, fwc_pref 0%Z (iadd T) t i =
      if (i <=? length a) && (mprod 0 Z.add (slice a 0 i) <=? it_max T)%Z then Ok (mprod 0 Z.add (slice a 0 i))%Z else Panic.
Proof.
  intros T HP HT a0 ops t outs Ha0 Hops Ht.
  assert ((t ← fw_from 0%Z Z.add a0; run (fw_step 0%Z Z.add Z.sub Z.add) t ops) = Ok (t, outs)) as Ht'.
  { assert (le_res (t ← fwc_from 0%Z (iadd T) a0; run (fwc_step 0%Z (iadd T) (isub T) (iadd T)) t ops)
              (t ← fw_from 0%Z Z.add a0; run (fw_step 0%Z Z.add Z.sub Z.add) t ops)) as [E|E].
    - apply le_bind; [apply fwc_le_from, (chk_or_panics T Z.add)|]. intros t1. apply le_run. intros s o.
      apply fwc_le_step; [apply (chk_or_panics T Z.add)|apply (chk_or_panics T Z.sub)|apply (chk_or_panics T Z.add)].
    - rewrite <- E. exact Ht.
    - rewrite E in Ht. discriminate. }
  pose proof (fenwick_refines 0%Z Z.add Z.sub Z.add Z_fw_laws a0 ops) as H. rewrite Ht' in H. cbn in H.
  destruct (run (fw_spec_step 0%Z Z.add Z.sub Z.add) a0 ops) as [[a outs']| |] eqn:E; try discriminate. cbn in H. injection H as <-.
  exists a. split; [reflexivity|].
  assert (FInv 0%Z Z.add t a) as I.
  { apply (fw_reached_inv 0%Z Z.add Z.sub Z.add Z_fw_laws a0 ops). split; eauto. }
  assert (Forall (fun x => 0 <= x)%Z a) as Hpos.
  { apply in_nonneg in Ha0; [|exact HT]. clear - Ha0 Hops E HT. revert a0 a outs Ha0 E.
    induction ops as [|o ops IH]; intros a0 a outs Ha0 E; cbn [run] in E; [injection E as -> _; exact Ha0|].
    apply Forall_cons in Hops as [Ho Hops]. apply rbind_ok_inv in E as ([a1 o1] & E1 & E).
    apply rbind_ok_inv in E as ([a2 o2] & E2 & E). injection E as <- _. refine (IH Hops a1 a2 o2 _ E2).
    destruct o as [i u|i|l r]; cbn [fw_spec_step] in E1.
    - injection E1 as <- _. destruct (a0 !! i) as [x|] eqn:Hi; [|exact Ha0]. apply Forall_insert; [exact Ha0|].
      rewrite Forall_lookup in Ha0. specialize (Ha0 i x Hi). destruct Ho as [Ho _]. unfold it_min in Ho. rewrite HT in Ho. lia.
    - destruct (i <=? length a0); [|discriminate]. injection E1 as <- _. exact Ha0.
    - destruct ((l <=? length a0) && (r <=? length a0)); [|discriminate]. injection E1 as <- _. exact Ha0. }
  intros i. destruct (Nat.leb_spec i (length a)) as [Hi|Hi]; cbn [andb].
  2:{ apply (fwc_pref_out 0%Z Z.add (iadd T) t a i I Hi). }
  destruct (Z.leb_spec (mprod 0 Z.add (slice a 0 i)) (it_max T))%Z as [Hs|Hs].
  - rewrite (fwc_pref_same 0%Z Z.add zadd_laws Z.add_comm (in_ty T) (iadd T) (iadd_agrees T) t a I).
    + apply (pref_ok 0%Z Z.add zadd_laws t a I); [apply Z.add_comm|exact Hi].
    + intros l r Hlr Hr. pose proof (sum_nonneg _ (forall_slice _ a l r Hpos)).
      assert (mprod 0 Z.add (slice a l r) <= mprod 0 Z.add (slice a 0 i))%Z.
      { rewrite <- (slice_app a 0 l i), <- (slice_app a l r i), !(mprod_app _ _ zadd_laws) by lia.
        pose proof (sum_nonneg _ (forall_slice _ a 0 l Hpos)). pose proof (sum_nonneg _ (forall_slice _ a r i Hpos)). lia. }
      split; [unfold it_min; rewrite HT; lia|lia].
  - destruct (fwc_le_pref 0%Z Z.add (iadd T) (chk_or_panics T Z.add) t i) as [E1|E1]; [exfalso|exact E1].
    rewrite (pref_ok 0%Z Z.add zadd_laws t a I i Z.add_comm Hi) in E1.
    assert (in_ty T (mprod 0 Z.add (slice a 0 i))%Z) as [_ H]; [|lia].
    apply (fwc_pref_in T t i); [|exact E1].
    clear - HP. unfold prim_types in HP. repeat (apply elem_of_cons in HP as [->|HP]; [vm_compute; split; discriminate|]).
    apply elem_of_nil in HP. contradiction.
Qed.
Print Assumptions C65_fenwick_unsigned_pref.

Lemma iadd_or_panics T : or_panics Z.add (iadd T).
Proof. exact (chk_or_panics T Z.add). Qed.

Lemma ranges_in T a :
  forallb (fun l => forallb (fun r => fitsb T (mprod 0 Z.add (slice a l r))%Z) (seq 0 (S (length a)))) (seq 0 (S (length a))) = true ->
  ranges_good 0%Z Z.add (in_ty T) a.
Proof.
  intros H l r Hlr. rewrite forallb_forall in H. specialize (H l ltac:(apply in_seq; lia)).
  rewrite forallb_forall in H. apply fitsb_in. apply H. apply in_seq. lia.
Qed.

(** i8: a history with all range sums between -128 and 127; sum(l, r) with l > r is minus the sum. *)
Example C65_signed_nonvacuous :
  always (fwi_spec_step i8) (ranges_good 0%Z Z.add (in_ty i8)) [100; -100; 27]%Z
    [FwAdd 1 (-28)%Z; FwPref 3; FwSum 1 3; FwSum 3 1; FwAdd 7 5%Z] /\
  fmap snd (t ← fwc_from 0%Z (iadd i8) [100; -100; 27]%Z;
    run (fwc_step 0%Z (iadd i8) (isub i8) (iadd i8)) t [FwAdd 1 (-28)%Z; FwPref 3; FwSum 1 3; FwSum 3 1; FwAdd 7 5%Z])
  = Ok [FwUnit; FwVal (-1)%Z; FwVal (-101)%Z; FwVal 101%Z; FwUnit].
Proof.
  split; [|vm_compute; reflexivity].
  do 5 (cbn [always]; split; [apply ranges_in; vm_compute; reflexivity|]; match goal with |- context [fwi_spec_step i8 ?a ?o] =>
    let x := eval vm_compute in (fwi_spec_step i8 a o) in change (fwi_spec_step i8 a o) with x end; cbv iota beta).
  split; [apply ranges_in; vm_compute; reflexivity|exact I].
Qed.

(** i8: the search for 9 in the prefix sums 3, 9, 14. *)
Example C65_search_nonvacuous : exists t outs a outs',
  always (fwc_spec_step 0%Z Z.add (isub i8) Z.add) (ranges_good 0%Z Z.add (in_ty i8)) [3; 4; 5]%Z [FwAdd 1 2%Z] /\
  (t ← fwc_from 0%Z (iadd i8) [3; 4; 5]%Z; run (fwc_step 0%Z (iadd i8) (isub i8) (iadd i8)) t [FwAdd 1 2%Z]) = Ok (t, outs) /\
  run (fwc_spec_step 0%Z Z.add (isub i8) Z.add) [3; 4; 5]%Z [FwAdd 1 2%Z] = Ok (a, outs') /\ length a = 3 /\
  (forall i, i < length a -> Z.ltb (prefix_sum 0%Z Z.add a i) 9%Z = (i <? 1)) /\ fwc_search 0%Z (iadd i8) Z.ltb t 9%Z = Ok 1.
Proof.
  eexists _, _, _, _. split.
  { cbn [always]. split; [apply ranges_in; vm_compute; reflexivity|]. match goal with |- context [fwc_spec_step ?z ?p ?q ?u ?a ?o] =>
      let x := eval vm_compute in (fwc_spec_step z p q u a o) in change (fwc_spec_step z p q u a o) with x end; cbv iota beta.
    split; [apply ranges_in; vm_compute; reflexivity|exact I]. }
  split; [vm_compute; reflexivity|]. split; [vm_compute; reflexivity|]. split; [reflexivity|]. split; [|vm_compute; reflexivity].
  intros i Hi. cbn in Hi. destruct i as [|[|[|i]]]; [vm_compute; reflexivity..|lia].
Qed.

(** u8: `add` leaves the total at 300 without a panic because no node holds it (length 3); pref(3) panics, pref(2) answers.
    sum(2, 1) panics. *)
Example C65_unsigned_nonvacuous : exists t outs,
  (t ← fwc_from 0%Z (iadd u8) [100; 100; 50]%Z; run (fwc_step 0%Z (iadd u8) (isub u8) (iadd u8)) t [FwAdd 2 50%Z]) = Ok (t, outs) /\
  fwc_pref 0%Z (iadd u8) t 3 = Panic /\ fwc_pref 0%Z (iadd u8) t 2 = Ok 200%Z /\
  fwc_sum 0%Z (iadd u8) (isub u8) t 2 1 = Panic /\ fwc_sum 0%Z (iadd u8) (isub u8) t 1 2 = Ok 100%Z /\
  fwc_add (iadd u8) t 0 56%Z = Panic.
Proof. eexists _, _. split; [vm_compute; reflexivity|]. vm_compute. repeat split; reflexivity. Qed.
