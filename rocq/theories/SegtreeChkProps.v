(** Property theorems for src/data_structure/segtree.rs when the operation of the monoid may itself panic (C64): additions of
    machine integers that overflow, for instance. *)
From Verif Require Import Prelude IntModel UtilModel ArraySpec SegtreeSpec SegtreeModel SegtreeProof SegtreeProps MonoidModel PartialOps
  SegtreeChkModel SegtreeChkProof.

(** The operation is run on values whose mathematical combination is good only: if every range of the plain array has a good product at every
    moment of the history, the tree never meets a panicking operation. *)
Theorem C64_segtree_checked : forall {S : Type} (e : S) (op : S -> S -> S) (good : S -> Prop) (opc : S -> S -> res S),
  monoid_laws e op -> agrees good op opc -> forall (v : list S) (ops : list (sg_op S)),
  (Z.of_nat (length v) < 2 ^ 32)%Z -> always (sg_spec_step e op) (ranges_good e op good) v ops ->
  fmap snd (t ← stc_from e opc v; run (stc_step e opc) t ops) = fmap snd (run (sg_spec_step e op) v ops).
Proof.
  intros S e op good opc L A v ops Hv H. rewrite (from_same e op L good opc A v Hv (always_hd _ _ _ _ H)).
  rewrite <- (segtree_refines_array e op L v ops Hv).
  destruct (st_from_inv e op v Hv) as (t & -> & I). cbn [mbind res_bind].
  rewrite (run_same e op L good opc A ops t v I H). reflexivity.
Qed.
Print Assumptions C64_segtree_checked.

(** The same for the searches, on every tree such a history leaves. *)
Theorem C64_segtree_searches : forall {S : Type} (e : S) (op : S -> S -> S) (good : S -> Prop) (opc : S -> S -> res S),
  monoid_laws e op -> agrees good op opc -> forall (v : list S) (ops : list (sg_op S)) t a outs outs',
  (Z.of_nat (length v) < 2 ^ 32)%Z -> always (sg_spec_step e op) (ranges_good e op good) v ops ->
  (t ← stc_from e opc v; run (stc_step e opc) t ops) = Ok (t, outs) ->
  run (sg_spec_step e op) v ops = Ok (a, outs') ->
  (forall l f,
    (l <= length a -> f e = true ->
       exists r, stc_max_right e opc t l f = Ok r /\ max_right_post e op a l f r /\
         (mono_from e op a l f -> forall j, l <= j <= length a -> f (mprod e op (slice a l j)) = true -> j <= r)) /\
    (length a < l \/ f e = false -> stc_max_right e opc t l f = Panic)) /\
  (forall r f,
    (r <= length a -> f e = true ->
       exists l, stc_min_left e opc t r f = Ok l /\ min_left_post e op a r f l /\
         (mono_to e op a r f -> forall i, i <= r -> f (mprod e op (slice a i r)) = true -> l <= i)) /\
    (length a < r \/ f e = false -> stc_min_left e opc t r f = Panic)).
Proof.
  intros S e op good opc L A v ops t a outs outs' Hv H Ht Ha.
  assert (reached e op v ops t a) as R.
  { split; [|eauto]. exists outs. rewrite <- Ht. rewrite (from_same e op L good opc A v Hv (always_hd _ _ _ _ H)).
    destruct (st_from_inv e op v Hv) as (t0 & -> & I). cbn [mbind res_bind]. symmetry. apply (run_same e op L good opc A ops t0 v I H). }
  assert (ranges_good e op good a) as G.
  { clear - H Ha. revert v outs' H Ha. induction ops as [|o ops IH]; intros v outs' H Ha.
    - injection Ha as <- _. exact (always_hd _ _ _ _ H).
    - destruct H as [_ H]. cbn [run] in Ha. apply rbind_ok_inv in Ha as ([v1 o1] & E1 & Ha). rewrite E1 in H.
      apply rbind_ok_inv in Ha as ([v2 o2] & E2 & Ha). injection Ha as <- _. apply (IH v1 o2 H E2). }
  pose proof (reached_inv e op L v ops t a R) as I. split; intros q f.
  - rewrite (max_right_same e op L good opc A t a I G). apply (max_right_reached e op L v ops t a q f R).
  - rewrite (min_left_same e op L good opc A t a I G). apply (min_left_reached e op L v ops t a q f R).
Qed.
Print Assumptions C64_segtree_searches.

(** Whatever the values are: over an operation that computes [op] or panics, a history answers like the plain array or panics;
    it never returns a wrong answer and never fails to return. *)
Theorem C64_segtree_never_wrong : forall {S : Type} (e : S) (op : S -> S -> S) (opc : S -> S -> res S),
  monoid_laws e op -> or_panics op opc -> forall (v : list S) (ops : list (sg_op S)), (Z.of_nat (length v) < 2 ^ 32)%Z ->
  let answers := fmap snd (t ← stc_from e opc v; run (stc_step e opc) t ops) in
  answers = fmap snd (run (sg_spec_step e op) v ops) \/ answers = Panic.
Proof.
  intros S e op opc L O v ops Hv answers. rewrite <- (segtree_refines_array e op L v ops Hv).
  apply le_fmap, le_bind; [apply le_from; exact O|]. intros t. apply le_run. intros s o. apply le_step. exact O.
Qed.
Print Assumptions C64_segtree_never_wrong.

Theorem C64_segtree_searches_never_wrong : forall {S : Type} (e : S) (op : S -> S -> S) (opc : S -> S -> res S),
  monoid_laws e op -> or_panics op opc -> forall (v : list S) (ops : list (sg_op S)) t outs, (Z.of_nat (length v) < 2 ^ 32)%Z ->
  (t ← stc_from e opc v; run (stc_step e opc) t ops) = Ok (t, outs) ->
  exists a, run (sg_spec_step e op) v ops = Ok (a, outs) /\
    (forall l f r, stc_max_right e opc t l f = Ok r -> l <= length a /\ max_right_post e op a l f r) /\
    (forall r f l, stc_min_left e opc t r f = Ok l -> r <= length a /\ min_left_post e op a r f l) /\
    (forall l f, stc_max_right e opc t l f <> Diverge) /\ (forall r f, stc_min_left e opc t r f <> Diverge).
Proof.
  intros S e op opc L O v ops t outs Hv Ht.
  assert ((t ← st_from e op v; run (st_step e op) t ops) = Ok (t, outs)) as Ht'.
  { assert (le_res (t ← stc_from e opc v; run (stc_step e opc) t ops) (t ← st_from e op v; run (st_step e op) t ops)) as [E|E].
    - apply le_bind; [apply le_from; exact O|]. intros t1. apply le_run. intros s o. apply le_step. exact O.
    - rewrite <- E. exact Ht.
    - rewrite E in Ht. discriminate. }
  pose proof (segtree_refines_array e op L v ops Hv) as H. rewrite Ht' in H. cbn in H.
  destruct (run (sg_spec_step e op) v ops) as [[a outs']| |] eqn:E; try discriminate. cbn in H. injection H as <-.
  exists a. split; [reflexivity|].
  assert (reached e op v ops t a) as R by (split; eauto).
  assert (HM : forall l f, (exists r, st_max_right e op t l f = Ok r /\ l <= length a /\ max_right_post e op a l f r) \/ st_max_right e op t l f = Panic).
  { intros l f. destruct (max_right_reached e op L v ops t a l f R) as [H1 H2].
    destruct (decide (l <= length a)) as [Hl|Hl]; [|right; apply H2; lia]. destruct (f e) eqn:Hf; [|right; apply H2; auto].
    left. destruct (H1 Hl eq_refl) as (r & Hr & Hp & _). eauto. }
  assert (HN : forall r f, (exists l, st_min_left e op t r f = Ok l /\ r <= length a /\ min_left_post e op a r f l) \/ st_min_left e op t r f = Panic).
  { intros r f. destruct (min_left_reached e op L v ops t a r f R) as [H1 H2].
    destruct (decide (r <= length a)) as [Hl|Hl]; [|right; apply H2; lia]. destruct (f e) eqn:Hf; [|right; apply H2; auto].
    left. destruct (H1 Hl eq_refl) as (l & Hr & Hp & _). eauto. }
  split; [|split; [|split]].
  - intros l f r H. destruct (le_max_right e op opc O t l f) as [E1|E1]; [|congruence]. rewrite E1 in H.
    destruct (HM l f) as [(r' & Hr & Hl & Hp)|Hr]; [|congruence]. assert (r' = r) as -> by congruence. auto.
  - intros r f l H. destruct (le_min_left e op opc O t r f) as [E1|E1]; [|congruence]. rewrite E1 in H.
    destruct (HN r f) as [(r' & Hr & Hl & Hp)|Hr]; [|congruence]. assert (r' = l) as -> by congruence. auto.
  - intros l f Hd. destruct (le_max_right e op opc O t l f) as [E1|E1]; [|congruence]. rewrite E1 in Hd.
    destruct (HM l f) as [(r' & Hr & _)|Hr]; congruence.
  - intros r f Hd. destruct (le_min_left e op opc O t r f) as [E1|E1]; [|congruence]. rewrite E1 in Hd.
    destruct (HN r f) as [(r' & Hr & _)|Hr]; congruence.
Qed.
Print Assumptions C64_segtree_searches_never_wrong.

(** ** Sums of unsigned machine integers: exactly when the program panics *)

(** A history of values of type [T]. *)
Definition op_in (T : ity) (o : sg_op Z) : Prop := match o with SgSet _ x => in_ty T x | _ => True end.

(** The plain array whose total must not exceed [mx]. *)
Definition sum_spec_step (mx : Z) (a : list Z) (o : sg_op Z) : res (list Z * sg_out Z) :=
  match sg_spec_step 0%Z Z.add a o with
  | Ok (a', out) => if (mprod 0%Z Z.add a' <=? mx)%Z then Ok (a', out) else Panic
  | r => r
  end.

Lemma zadd_laws : monoid_laws 0%Z Z.add.
Proof. split; intros; lia. Qed.

Lemma add_agrees T : agrees (in_ty T) Z.add (add_op T).
Proof. intros x y H. unfold add_op, iadd. apply chk_ok. exact H. Qed.

Lemma mul_agrees T : agrees (in_ty T) Z.mul (mul_op T).
Proof. intros x y H. unfold mul_op, imul. apply chk_ok. exact H. Qed.

Lemma sum_nonneg a : Forall (fun x => 0 <= x)%Z a -> (0 <= mprod 0 Z.add a)%Z.
Proof. induction 1 as [|x a Hx Ha IH]; cbn; [lia|]. unfold mprod in *. lia. Qed.

Lemma forall_slice {S} (Q : S -> Prop) a l r : Forall Q a -> Forall Q (slice a l r).
Proof. intros H. unfold slice. apply Forall_take, Forall_drop. exact H. Qed.

Lemma sum_slice_le a l r : Forall (fun x => 0 <= x)%Z a -> (0 <= mprod 0 Z.add (slice a l r) <= mprod 0 Z.add a)%Z.
Proof.
  intros H. split; [apply sum_nonneg, forall_slice, H|]. unfold slice.
  assert (mprod 0 Z.add a = mprod 0 Z.add (take l a) + (mprod 0 Z.add (take (r - l) (drop l a)) + mprod 0 Z.add (drop (r - l) (drop l a))))%Z as ->.
  { rewrite <- (mprod_app _ _ zadd_laws), take_drop, <- (mprod_app _ _ zadd_laws), take_drop. reflexivity. }
  pose proof (sum_nonneg (take l a) ltac:(apply Forall_take, H)).
  pose proof (sum_nonneg (drop (r - l) (drop l a)) ltac:(apply Forall_drop, Forall_drop, H)). lia.
Qed.

Definition fitsb (T : ity) (x : Z) : bool := ((it_min T <=? x) && (x <=? it_max T))%Z.

Lemma fitsb_in T x : fitsb T x = true <-> in_ty T x.
Proof. unfold fitsb, in_ty. rewrite andb_true_iff, !Z.leb_le. reflexivity. Qed.

Lemma add_exact T : exact (fitsb T) Z.add (add_op T).
Proof.
  intros x y. unfold add_op, iadd. destruct (fitsb T (x + y)) eqn:E.
  - apply chk_ok. apply fitsb_in. exact E.
  - apply chk_panic. intros H. apply fitsb_in in H. congruence.
Qed.

Lemma in_nonneg T a : it_signed T = false -> Forall (in_ty T) a -> Forall (fun x => 0 <= x)%Z a.
Proof. intros HT Ha. eapply Forall_impl; [exact Ha|]. intros x [H _]. unfold it_min in H. rewrite HT in H. exact H. Qed.

Lemma sum_total T a : it_signed T = false -> Forall (fun x => fitsb T x = true) a -> fitsb T (mprod 0 Z.add a)%Z = true ->
  ranges_good 0%Z Z.add (fun x => fitsb T x = true) a.
Proof.
  intros HT Ha Hs l r Hlr. rewrite fitsb_in in *.
  assert (Forall (in_ty T) a) as Ha' by (eapply Forall_impl; [exact Ha|]; intros x; apply fitsb_in).
  pose proof (sum_slice_le a l r (in_nonneg T a HT Ha')) as H. destruct Hs as [_ Hs]. split; [|lia].
  unfold it_min. rewrite HT. lia.
Qed.

Lemma sum_fits T a : it_signed T = false -> Forall (in_ty T) a -> fitsb T (mprod 0 Z.add a)%Z = (mprod 0 Z.add a <=? it_max T)%Z.
Proof.
  intros HT Ha. unfold fitsb. pose proof (sum_nonneg a (in_nonneg T a HT Ha)).
  assert (it_min T = 0)%Z as -> by (unfold it_min; rewrite HT; reflexivity).
  destruct (Z.leb_spec 0 (mprod 0 Z.add a)%Z); [reflexivity|lia].
Qed.

Lemma forall_fits T a : Forall (in_ty T) a -> Forall (fun x => fitsb T x = true) a.
Proof. intros Ha. eapply Forall_impl; [exact Ha|]. intros x. apply fitsb_in. Qed.

Section Unsigned.
  Context (T : ity) (HT : it_signed T = false).
  Let good := fun x => fitsb T x = true.

  Lemma sum_step t a o : Inv 0%Z Z.add t a -> Forall (in_ty T) a -> fitsb T (mprod 0 Z.add a)%Z = true -> op_in T o ->
    match sum_spec_step (it_max T) a o with
    | Ok (a', out) => exists t', stc_step 0%Z (add_op T) t o = Ok (t', out) /\ Inv 0%Z Z.add t' a' /\ Forall (in_ty T) a' /\ fitsb T (mprod 0 Z.add a')%Z = true
    | Panic => stc_step 0%Z (add_op T) t o = Panic
    | Diverge => False
    end.
  Proof using HT.
    intros I Ha Hs Ho. pose proof (sum_total T a HT (forall_fits T a Ha) Hs) as G.
    pose proof (step_refines 0%Z Z.add zadd_laws t a o I) as R. unfold sum_spec_step.
    assert (forall a' out, sg_spec_step 0%Z Z.add a o = Ok (a', out) -> Forall (in_ty T) a') as Hin.
    { intros a' out E. destruct o as [p x|p|l r|]; cbn [sg_spec_step] in E.
      - destruct (p <? length a); [|discriminate]. injection E as <- _. apply Forall_insert; assumption.
      - destruct (a !! p); [|discriminate]. injection E as <- _. exact Ha.
      - destruct ((l <=? r) && (r <=? length a)); [|discriminate]. injection E as <- _. exact Ha.
      - injection E as <- _. exact Ha. }
    destruct (sg_spec_step 0%Z Z.add a o) as [[a' out]| |] eqn:E; [| |contradiction].
    - specialize (Hin a' out eq_refl). rewrite <- (sum_fits T a' HT Hin). destruct (fitsb T (mprod 0 Z.add a')%Z) eqn:Hs'.
      + destruct R as (t' & R & I'). exists t'. split; [|auto]. rewrite <- R.
        apply (step_same 0%Z Z.add zadd_laws good (add_op T) (exact_agrees _ _ _ (add_exact T)) t a o I G).
        intros a1 out1 E1. rewrite E in E1. injection E1 as <- <-. apply sum_total; auto. apply forall_fits. exact Hin.
      + destruct o as [p x|p|l r|]; cbn [sg_spec_step] in E.
        * destruct (Nat.ltb_spec p (length a)) as [Hp|]; [|discriminate]. injection E as <- _. cbn [stc_step].
          rewrite (set_panic_fits 0%Z Z.add zadd_laws (fitsb T) (add_op T) (add_exact T) t a p x); [reflexivity|exact I|exact G|exact Hp| |exact Hs'].
          apply fitsb_in. exact Ho.
        * destruct (a !! p); [|discriminate]. injection E as <- _. congruence.
        * destruct ((l <=? r) && (r <=? length a)); [|discriminate]. injection E as <- _. congruence.
        * injection E as <- _. congruence.
    - rewrite <- R. apply (step_same 0%Z Z.add zadd_laws good (add_op T) (exact_agrees _ _ _ (add_exact T)) t a o I G).
      intros a1 out1 E1. rewrite E in E1. discriminate.
  Qed.

  Lemma sum_run ops : forall t a, Inv 0%Z Z.add t a -> Forall (in_ty T) a -> fitsb T (mprod 0 Z.add a)%Z = true -> Forall (op_in T) ops ->
    fmap snd (run (stc_step 0%Z (add_op T)) t ops) = fmap snd (run (sum_spec_step (it_max T)) a ops).
  Proof using HT.
    induction ops as [|o ops IH]; intros t a I Ha Hs Hops; [reflexivity|]. cbn [run].
    apply Forall_cons in Hops as [Ho Hops]. pose proof (sum_step t a o I Ha Hs Ho) as R.
    destruct (sum_spec_step (it_max T) a o) as [[a' out]| |]; [|rewrite R; reflexivity|contradiction].
    destruct R as (t' & -> & I' & Ha' & Hs'). cbn [mbind res_bind]. specialize (IH t' a' I' Ha' Hs' Hops).
    destruct (run (stc_step 0%Z (add_op T)) t' ops) as [[t2 o2]| |], (run (sum_spec_step (it_max T)) a' ops) as [[a2 o3]| |];
      cbn in *; congruence.
  Qed.
End Unsigned.

(** A tree of sums of unsigned integers of type T: a history panics exactly when an index is bad or the total of the array passes
    the largest value of T, no matter which partial sums the tree forms; otherwise it answers like the plain array. *)
Theorem C64_segtree_unsigned_sums : forall T, T ∈ prim_types -> it_signed T = false -> forall (v : list Z) (ops : list (sg_op Z)),
  (Z.of_nat (length v) < 2 ^ 32)%Z -> Forall (in_ty T) v -> Forall (op_in T) ops ->
  fmap snd (t ← stc_from add_identity (add_op T) v; run (stc_step add_identity (add_op T)) t ops)
  = if (mprod 0 Z.add v <=? it_max T)%Z then fmap snd (run (sum_spec_step (it_max T)) v ops) else Panic.
Proof.
  intros T HP HT v ops Hlen Hv Hops. change add_identity with 0%Z. rewrite <- (sum_fits T v HT Hv).
  destruct (fitsb T (mprod 0 Z.add v)%Z) eqn:Hs.
  - pose proof (sum_total T v HT (forall_fits T v Hv) Hs) as G.
    rewrite (from_same 0%Z Z.add zadd_laws _ (add_op T) (exact_agrees _ _ _ (add_exact T)) v Hlen G).
    destruct (st_from_inv 0%Z Z.add v Hlen) as (t & -> & I). cbn [mbind res_bind]. apply (sum_run T HT ops t v I Hv Hs Hops).
  - rewrite (from_panic 0%Z Z.add zadd_laws (fitsb T) (add_op T) (add_exact T) v Hlen (forall_fits T v Hv)); [reflexivity| |exact Hs].
    clear - HP. unfold prim_types in HP. repeat (apply elem_of_cons in HP as [->|HP]; [vm_compute; reflexivity|]).
    apply elem_of_nil in HP. contradiction.
Qed.
Print Assumptions C64_segtree_unsigned_sums.

(** Sums or products of machine integers of any type: a history in which every range of the array has its sum (product) in the
    type never panics for another reason than a bad index. *)
Theorem C64_segtree_sums : forall T (v : list Z) (ops : list (sg_op Z)), (Z.of_nat (length v) < 2 ^ 32)%Z ->
  always (sg_spec_step 0%Z Z.add) (ranges_good 0%Z Z.add (in_ty T)) v ops ->
  fmap snd (t ← stc_from add_identity (add_op T) v; run (stc_step add_identity (add_op T)) t ops)
  = fmap snd (run (sg_spec_step 0%Z Z.add) v ops).
Proof. intros T v ops. apply C64_segtree_checked; [apply zadd_laws|apply add_agrees]. Qed.
Print Assumptions C64_segtree_sums.

Theorem C64_segtree_products : forall T (v : list Z) (ops : list (sg_op Z)), (Z.of_nat (length v) < 2 ^ 32)%Z ->
  always (sg_spec_step 1%Z Z.mul) (ranges_good 1%Z Z.mul (in_ty T)) v ops ->
  fmap snd (t ← stc_from mul_identity (mul_op T) v; run (stc_step mul_identity (mul_op T)) t ops)
  = fmap snd (run (sg_spec_step 1%Z Z.mul) v ops).
Proof. intros T v ops. apply C64_segtree_checked; [split; intros; lia|apply mul_agrees]. Qed.
Print Assumptions C64_segtree_products.

(** With an operation that never panics this is the tree of C01. *)
Theorem C64_total_operation : forall {S : Type} (e : S) (op : S -> S -> S), monoid_laws e op -> forall (v : list S) (ops : list (sg_op S)),
  (Z.of_nat (length v) < 2 ^ 32)%Z ->
  (t ← stc_from e (fun x y => Ok (op x y)) v; run (stc_step e (fun x y => Ok (op x y))) t ops)
  = (t ← st_from e op v; run (st_step e op) t ops).
Proof.
  intros S e op L v ops Hv.
  assert (A : agrees (fun _ => True) op (fun x y => Ok (op x y))) by (intros x y _; reflexivity).
  rewrite (from_same e op L _ _ A v Hv) by (intros l r _; exact I).
  destruct (st_from_inv e op v Hv) as (t & -> & In). cbn [mbind res_bind]. apply (run_same e op L _ _ A ops t v In).
  clear. revert v. induction ops as [|o ops IH]; intros v; cbn [always]; (split; [intros l r _; exact I|]); [exact I|].
  destruct (sg_spec_step e op v o) as [[v' out]| |]; auto.
Qed.
Print Assumptions C64_total_operation.

(** u8: three values of total 250; a replacement that brings the total to 260 panics although no query asked for it, and one
    that brings it to 255 does not. *)
Example C64_unsigned_nonvacuous :
  (mprod 0 Z.add [100; 100; 50] <=? it_max u8)%Z = true /\
  fmap snd (t ← stc_from add_identity (add_op u8) [100; 100; 50]%Z;
    run (stc_step add_identity (add_op u8)) t [SgSet 2 55%Z; SgProd 0 3; SgProd 1 2]) = Ok [SgUnit; SgVal 255%Z; SgVal 100%Z] /\
  (t ← stc_from add_identity (add_op u8) [100; 100; 50]%Z; run (stc_step add_identity (add_op u8)) t [SgSet 2 60%Z]) = Panic /\
  stc_from add_identity (add_op u8) [100; 100; 60]%Z = Panic.
Proof. vm_compute. repeat split; reflexivity. Qed.

(** i8: the hypothesis of C64_segtree_sums holds for a history with values of both signs. *)
Example C64_signed_nonvacuous :
  always (sg_spec_step 0%Z Z.add) (ranges_good 0%Z Z.add (in_ty i8)) [100; -100; 27]%Z [SgSet 1 (-128)%Z; SgProd 0 3] /\
  fmap snd (t ← stc_from add_identity (add_op i8) [100; -100; 27]%Z;
    run (stc_step add_identity (add_op i8)) t [SgSet 1 (-128)%Z; SgProd 0 3]) = Ok [SgUnit; SgVal (-1)%Z].
Proof.
  split; [|vm_compute; reflexivity]. cbn [always sg_spec_step length Nat.ltb Nat.leb andb insert list_insert].
  assert (forall x y z : Z, (forall w, w ∈ [0; x; y; z; x + y; y + z; x + y + z]%Z -> -128 <= w <= 127)%Z -> ranges_good 0%Z Z.add (in_ty i8) [x; y; z]) as H.
  { intros x y z Hw l r Hlr. cbn [length] in Hlr. change (in_ty i8 (mprod 0%Z Z.add (slice [x; y; z] l r))) with (-128 <= mprod 0%Z Z.add (slice [x; y; z] l r) <= 127)%Z.
    apply Hw. rewrite !elem_of_cons.
    assert (l = 0 \/ l = 1 \/ l = 2 \/ l = 3) as [->|[->|[->| ->]]] by lia;
    assert (r = 0 \/ r = 1 \/ r = 2 \/ r = 3) as [->|[->|[->| ->]]] by lia; cbn; lia. }
  change (1 <? 3) with true. cbn [length]. change ((0 <=? 3) && (3 <=? 3)) with true. cbv iota beta.
  split; [|split; [|split; [|exact I]]]; apply H; intros w Hw; rewrite !elem_of_cons, elem_of_nil in Hw; lia.
Qed.
