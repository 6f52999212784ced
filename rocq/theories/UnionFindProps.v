(** Property theorems for src/data_structure/union_find.rs (C10-C13, C54). *)
From Coq Require Import Sorting.Sorted.
From Verif Require Import Prelude ArraySpec UnionFindModel UnionFindProof.

(** A state reached from UnionFind::new(n) by the calls [ops]. *)
Definition uf_reached (n : nat) (ops : list uf_op) (u : uf) : Prop :=
  exists outs, run uf_step (uf_new n) ops = Ok (u, outs).

(** The answers a call gives, ignoring the new state. *)
Definition ans {A} (m : res (uf * A)) : res A := fmap snd m.

Lemma reached_inv n ops u : uf_reached n ops u -> UInv n u.
Proof. intros [outs H]. apply (run_inv n ops (uf_new n) u outs); [apply new_inv|exact H]. Qed.

Lemma find_reached n ops u i : uf_reached n ops u -> i < n ->
  exists u' r, uf_find u i = Ok (u', r) /\ r < n /\ ans (uf_find u r) = Ok r /\ ans (uf_find u' r) = Ok r /\
    forall j, ans (uf_find u' j) = ans (uf_find u j).
Proof.
  intros I%reached_inv Hi. destruct (find_ok n u i I Hi) as (u' & r & E & R & Hr & S' & _ & I').
  assert (forall j, ans (uf_find u' j) = ans (uf_find u j)) as Hall.
  { intros j. destruct (decide (j < n)) as [Hj|Hj].
    - destruct (find_ok n u j I Hj) as (u1 & r1 & -> & R1 & _).
      destruct (find_ok n u' j I' Hj) as (u2 & r2 & -> & R2 & _). cbn. f_equal.
      apply (root_det (uf_fa u') j); [exact R2|]. apply S'. exact R1.
    - rewrite (find_panic n u j), (find_panic n u' j) by (assumption || lia). reflexivity. }
  exists u', r. split; [exact E|]. split; [exact Hr|]. rewrite Hall.
  assert (ans (uf_find u r) = Ok r) as ->; [|auto].
  destruct (find_ok n u r I Hr) as (u1 & r1 & -> & R1 & _). cbn. f_equal.
  apply (root_det (uf_fa u) r); [exact R1|]. apply (root_self _ _ _ R).
Qed.

Lemma panics_reached n ops u : uf_reached n ops u ->
  (forall i, uf_find u i = Panic <-> n <= i) /\
  (forall x y, uf_is_same u x y = Panic <-> n <= x \/ n <= y) /\
  (forall x, uf_size u x = Panic <-> n <= x) /\
  (uf_groups u <> Panic) /\
  (forall x y, n <= x \/ n <= y -> uf_join u x y = Panic).
Proof.
  intros I%reached_inv. split; [|split; [|split; [|split]]].
  - intros i. split.
    + intros E. destruct (decide (i < n)) as [Hi|]; [|lia].
      destruct (find_ok n u i I Hi) as (u' & r & E' & _). congruence.
    + apply (find_panic n). exact I.
  - intros x y. split.
    + intros E. destruct (decide (x < n)) as [Hx|]; [|lia]. destruct (decide (y < n)) as [Hy|]; [|lia].
      destruct (is_same_ok n u x y I Hx Hy) as (u' & b & E' & _). congruence.
    + intros H. unfold uf_is_same. rewrite (ui_n _ _ I).
      destruct (Nat.ltb_spec x n); [|reflexivity]. destruct (Nat.ltb_spec y n); [lia|reflexivity].
  - intros x. split.
    + intros E. destruct (decide (x < n)) as [Hx|]; [|lia].
      destruct (size_ok n u x I Hx) as (u' & r & s & E' & _). congruence.
    + intros H. unfold uf_size. rewrite (ui_n _ _ I). destruct (Nat.ltb_spec x n); [lia|reflexivity].
  - destruct (groups_ok n u I) as (u' & gs & E & _). congruence.
  - intros x y H. unfold uf_join. rewrite (ui_n _ _ I).
    destruct (Nat.ltb_spec x n); [|reflexivity]. destruct (Nat.ltb_spec y n); [lia|reflexivity].
Qed.

(** is_same as a Boolean on in-range arguments *)
Definition sameb (u : uf) (x y : nat) : bool :=
  match uf_is_same u x y with Ok (_, b) => b | _ => false end.

Lemma sameb_spec n u x y : UInv n u -> x < n -> y < n ->
  (sameb u x y = true <-> exists r, root (uf_fa u) x r /\ root (uf_fa u) y r).
Proof.
  intros I Hx Hy. unfold sameb. destruct (is_same_ok n u x y I Hx Hy) as (u' & b & -> & _ & _ & _ & H). exact H.
Qed.

Lemma sameb_rootf n u x y : UInv n u -> x < n -> y < n ->
  sameb u x y = (rootf (uf_fa u) x =? rootf (uf_fa u) y).
Proof.
  intros I Hx Hy. apply eq_true_iff_eq. rewrite (sameb_spec n u x y I Hx Hy), Nat.eqb_eq.
  destruct (ui_ac _ _ I x) as [rx Rx]; [rewrite (ui_fa _ _ I); exact Hx|].
  destruct (ui_ac _ _ I y) as [ry Ry]; [rewrite (ui_fa _ _ I); exact Hy|].
  rewrite (rootf_spec _ _ _ Rx), (rootf_spec _ _ _ Ry). split.
  - intros (r & H1 & H2). rewrite (root_det _ _ _ _ Rx H1), (root_det _ _ _ _ Ry H2). reflexivity.
  - intros <-. eauto.
Qed.

Lemma join_reached_any n ops u x y u' b : uf_reached n ops u -> x < n -> y < n ->
  uf_join u x y = Ok (u', b) ->
  b = negb (sameb u x y) /\ sameb u' x y = true /\
  (forall i j, i < n -> j < n -> sameb u i x = false -> sameb u j x = false -> sameb u' i j = sameb u i j).
Proof.
  intros I%reached_inv Hx Hy E.
  destruct (join_ok n u x y I Hx Hy) as [E'|(u1 & b1 & rx & ry & E' & I' & Rx & Ry & Hb & Hcase)]; [congruence|].
  rewrite E in E'. injection E' as <- <-.
  assert (sameb u x y = (rx =? ry)) as Hxy.
  { rewrite (sameb_rootf n) by assumption. rewrite (rootf_spec _ _ _ Rx), (rootf_spec _ _ _ Ry). reflexivity. }
  destruct b.
  - assert (rx <> ry) as Hne by (apply Hb; reflexivity).
    destruct Hcase as (fa1 & sx & sy & S1 & Efa & _).
    pose proof (proj2 S1 _ _ Rx) as Rx1. pose proof (proj2 S1 _ _ Ry) as Ry1.
    assert (root (uf_fa u') y ry) as Ry'.
    { rewrite Efa. apply (link_avoid fa1 x y rx Rx1 y ry Ry1 Hne). }
    assert (y <> x) as Hyx by (intros ->; apply Hne; apply (root_det (uf_fa u) x); assumption).
    assert (root (uf_fa u') x ry) as Rx'.
    { destruct Ry' as [d Hd]. exists (S d). apply ro_step with y; [|exact Hyx|exact Hd].
      rewrite Efa. apply list_lookup_insert. destruct S1 as [-> _]. rewrite (ui_fa _ _ I). exact Hx. }
    split; [rewrite Hxy; destruct (Nat.eqb_spec rx ry); [contradiction|reflexivity]|].
    split; [apply (sameb_spec n); eauto|].
    intros i j Hi Hj Hix Hjx.
    assert (forall k, k < n -> sameb u k x = false -> rootf (uf_fa u') k = rootf (uf_fa u) k) as Hk.
    { intros k Hk Hkx. destruct (ui_ac _ _ I k) as [s Hs]; [rewrite (ui_fa _ _ I); exact Hk|].
      rewrite (sameb_rootf n), (rootf_spec _ _ _ Hs), (rootf_spec _ _ _ Rx) in Hkx by assumption.
      apply Nat.eqb_neq in Hkx. rewrite (rootf_spec _ _ _ Hs). apply rootf_spec. rewrite Efa.
      apply (link_avoid fa1 x y rx Rx1); [apply S1; exact Hs|congruence]. }
    rewrite !(sameb_rootf n) by assumption. rewrite !Hk by assumption. reflexivity.
  - assert (rx = ry) as <- by (destruct (decide (rx = ry)) as [|Hne]; [assumption|apply Hb in Hne; discriminate]).
    destruct Hcase as [S1 _].
    split; [rewrite Hxy, Nat.eqb_refl; reflexivity|]. split.
    { apply (sameb_spec n); [exact I'|assumption|assumption|]. exists rx. split; apply S1; assumption. }
    intros i j Hi Hj _ _. apply eq_true_iff_eq. rewrite !(sameb_spec n) by assumption.
    pose proof (fun k r => same_roots_iff _ _ k r (ui_ac _ _ I) S1) as Hiff.
    split; intros (r & H1 & H2); exists r; split; apply Hiff; assumption.
Qed.

Lemma join_reached_rep n ops u x y u' b : uf_reached n ops u -> x < n -> y < n ->
  ans (uf_find u x) = Ok x -> uf_join u x y = Ok (u', b) ->
  b = negb (sameb u x y) /\
  forall i j, i < n -> j < n ->
    sameb u' i j = sameb u i j || (sameb u i x && sameb u y j) || (sameb u i y && sameb u x j).
Proof.
  intros R Hx Hy Hrep E. pose proof (reached_inv _ _ _ R) as I.
  destruct (join_reached_any n ops u x y u' b R Hx Hy E) as [Hbs _]. split; [exact Hbs|].
  destruct (join_ok n u x y I Hx Hy) as [E'|(u1 & b1 & rx & ry & E' & I' & Rx & Ry & Hb & Hcase)]; [congruence|].
  rewrite E in E'. injection E' as <- <-.
  assert (rx = x) as ->.
  { destruct (find_ok n u x I Hx) as (u2 & r2 & E2 & R2 & _). rewrite E2 in Hrep. cbn in Hrep.
    injection Hrep as ->. apply (root_det (uf_fa u) x); assumption. }
  intros i j Hi Hj. rewrite !(sameb_rootf n) by assumption.
  rewrite !(rootf_spec (uf_fa u) x x Rx), !(rootf_spec (uf_fa u) y ry Ry).
  destruct (ui_ac _ _ I i) as [ri Ri]; [rewrite (ui_fa _ _ I); exact Hi|].
  destruct (ui_ac _ _ I j) as [rj Rj]; [rewrite (ui_fa _ _ I); exact Hj|].
  rewrite (rootf_spec _ _ _ Ri), (rootf_spec _ _ _ Rj).
  destruct b.
  - assert (x <> ry) as Hne by (apply Hb; reflexivity).
    destruct Hcase as (fa1 & sx & sy & S1 & Efa & _).
    pose proof (proj2 S1 _ _ Rx) as Rx1. pose proof (proj2 S1 _ _ Ry) as Ry1.
    pose proof (link_merge fa1 x y ry i ri Rx1 Ry1 Hne (proj2 S1 _ _ Ri)) as Ri'.
    pose proof (link_merge fa1 x y ry j rj Rx1 Ry1 Hne (proj2 S1 _ _ Rj)) as Rj'.
    rewrite <- Efa in Ri', Rj'. rewrite (rootf_spec _ _ _ Ri'), (rootf_spec _ _ _ Rj').
    destruct (decide (ri = x)) as [->|Hri], (decide (rj = x)) as [->|Hrj];
      rewrite ?Nat.eqb_refl; try reflexivity;
      repeat match goal with |- context [?a =? ?b] => destruct (Nat.eqb_spec a b); subst; try congruence end; reflexivity.
  - assert (x = ry) as <- by (destruct (decide (x = ry)) as [|Hne]; [assumption|apply Hb in Hne; discriminate]).
    destruct Hcase as [S1 _].
    rewrite (rootf_spec _ _ _ (proj2 S1 _ _ Ri)), (rootf_spec _ _ _ (proj2 S1 _ _ Rj)).
    repeat match goal with |- context [?a =? ?b] => destruct (Nat.eqb_spec a b); subst; try congruence end; reflexivity.
Qed.

Lemma find_rootf n u i : UInv n u -> i < n -> ans (uf_find u i) = Ok (rootf (uf_fa u) i).
Proof.
  intros I Hi. destruct (find_ok n u i I Hi) as (u1 & r & -> & R & _). rewrite (rootf_spec _ _ _ R). reflexivity.
Qed.

Lemma join_reached_moves n ops u x y u' b : uf_reached n ops u -> x < n -> y < n -> uf_join u x y = Ok (u', b) ->
  exists D : nat -> bool,
    (b = true -> D x = true) /\
    (forall i, i < n -> D i = true -> sameb u i x = true) /\
    (forall r, ans (uf_find u x) = Ok r -> r <> x -> D r = false) /\
    (forall i, i < n -> ans (uf_find u' i) = ans (uf_find u (if D i then y else i))) /\
    (forall i j, i < n -> j < n -> sameb u' i j = sameb u (if D i then y else i) (if D j then y else j)).
Proof.
  intros R Hx Hy E. pose proof (reached_inv _ _ _ R) as I.
  destruct (join_ok n u x y I Hx Hy) as [E'|(u1 & b1 & rx & ry & E' & I' & Rx & Ry & Hb & Hcase)]; [congruence|].
  rewrite E in E'. injection E' as <- <-.
  destruct b.
  - assert (rx <> ry) as Hne by (apply Hb; reflexivity).
    destruct Hcase as (fa1 & sx & sy & S1 & Efa & _).
    pose proof (proj2 S1 _ _ Rx) as Rx1. pose proof (proj2 S1 _ _ Ry) as Ry1.
    pose proof (link_avoid fa1 x y rx Rx1 y ry Ry1 Hne) as [dy Hdy]. rewrite <- Efa in Hdy.
    assert (y <> x) as Hyx by (intros ->; apply Hne; apply (root_det (uf_fa u) x); assumption).
    assert (root (uf_fa u') x ry) as Rx'.
    { exists (S dy). apply ro_step with y; [|exact Hyx|exact Hdy].
      rewrite Efa. apply list_lookup_insert. destruct S1 as [-> _]. rewrite (ui_fa _ _ I). exact Hx. }
    exists (fun i => (rootf (uf_fa u) i =? rx) && (rootf (uf_fa u') i =? ry)).
    assert (Hk : forall k, k < n -> rootf (uf_fa u') k =
        rootf (uf_fa u) (if (rootf (uf_fa u) k =? rx) && (rootf (uf_fa u') k =? ry) then y else k)).
    { intros k Hk. destruct (ui_ac _ _ I k) as [s Hs]; [rewrite (ui_fa _ _ I); exact Hk|].
      destruct (link_either fa1 x y rx ry k s Rx1 Ry1 Hne (proj2 S1 _ _ Hs)) as [H|[-> H]]; rewrite <- Efa in H;
        rewrite (rootf_spec _ _ _ H), (rootf_spec _ _ _ Hs).
      - destruct (Nat.eqb_spec s rx) as [->|_]; [destruct (Nat.eqb_spec rx ry); [contradiction|]|];
          cbn [andb]; rewrite (rootf_spec _ _ _ Hs); reflexivity.
      - rewrite !Nat.eqb_refl. cbn [andb]. rewrite (rootf_spec _ _ _ Ry). reflexivity. }
    split; [|split; [|split; [|split]]].
    + intros _. rewrite (rootf_spec _ _ _ Rx), (rootf_spec _ _ _ Rx'), !Nat.eqb_refl. reflexivity.
    + intros i Hi [Hr _]%andb_true_iff. rewrite (sameb_rootf n), (rootf_spec _ _ _ Rx) by assumption. exact Hr.
    + intros r Hr Hrx. destruct (find_ok n u x I Hx) as (u2 & r2 & E2 & R2 & _). rewrite E2 in Hr. cbn in Hr. injection Hr as ->.
      rewrite <- (root_det _ _ _ _ Rx R2) in *. apply andb_false_iff. right. apply Nat.eqb_neq.
      assert (root (uf_fa u') rx rx) as Rr.
      { exists 0. constructor. rewrite Efa, list_lookup_insert_ne by congruence. destruct Rx1 as [d Rx1]. apply (rootof_root _ _ _ _ Rx1). }
      rewrite (rootf_spec _ _ _ Rr). exact Hne.
    + intros i Hi. rewrite !(find_rootf n) by (assumption || (destruct (_ && _); assumption)). f_equal. apply Hk. exact Hi.
    + intros i j Hi Hj.
      pose proof (Hk i Hi) as Ei. pose proof (Hk j Hj) as Ej. rewrite (sameb_rootf n u') by assumption.
      revert Ei Ej. destruct ((rootf (uf_fa u) i =? rx) && (rootf (uf_fa u') i =? ry)), ((rootf (uf_fa u) j =? rx) && (rootf (uf_fa u') j =? ry));
        intros -> ->; rewrite (sameb_rootf n u) by assumption; reflexivity.
  - exists (fun _ => false). split; [discriminate|]. split; [discriminate|]. split; [reflexivity|].
    destruct Hcase as [S1 _]. split.
    { intros i Hi. rewrite !(find_rootf n) by assumption. f_equal.
      destruct (ui_ac _ _ I i) as [s Hs]; [rewrite (ui_fa _ _ I); exact Hi|].
      rewrite (rootf_spec _ _ _ Hs). apply rootf_spec. apply S1. exact Hs. }
    intros i j Hi Hj. apply eq_true_iff_eq. rewrite !(sameb_spec n) by assumption.
    pose proof (fun k r => same_roots_iff _ _ k r (ui_ac _ _ I) S1) as Hiff.
    split; intros (r & H1 & H2); exists r; split; apply Hiff; assumption.
Qed.

(** join is only called on two representatives along the history *)
Fixpoint joins_reps (u : uf) (ops : list uf_op) : Prop :=
  match ops with
  | [] => True
  | o :: ops =>
      match o with
      | UfJoin x y => ans (uf_find u x) = Ok x /\ ans (uf_find u y) = Ok y
      | _ => True
      end /\
      forall u' out, uf_step u o = Ok (u', out) -> joins_reps u' ops
  end.

Lemma find_rep_root n u x : UInv n u -> ans (uf_find u x) = Ok x -> x < n /\ root (uf_fa u) x x.
Proof.
  intros I H. destruct (decide (x < n)) as [Hx|Hx].
  - split; [exact Hx|]. destruct (find_ok n u x I Hx) as (u2 & r2 & E2 & R2 & _). rewrite E2 in H. cbn in H.
    congruence.
  - rewrite (find_panic n) in H by (assumption || lia). discriminate.
Qed.

Lemma sizes_step n u o u' out : (Z.of_nat n < 2 ^ 64)%Z -> UInv n u -> sizes_exact n u ->
  match o with
  | UfJoin x y => ans (uf_find u x) = Ok x /\ ans (uf_find u y) = Ok y
  | _ => True
  end -> uf_step u o = Ok (u', out) -> sizes_exact n u'.
Proof.
  intros Hn I HS Ho H. destruct o as [i|x y|x y|x|]; cbn [uf_step] in H.
  - destruct (decide (i < n)) as [Hi|Hi].
    + destruct (find_ok n u i I Hi) as (u1 & r & E & _ & _ & S1 & Z1 & I1). rewrite E in H. cbn in H.
      injection H as <- _. apply (sizes_same n u); assumption.
    + rewrite (find_panic n) in H by (assumption || lia). discriminate.
  - destruct (decide (x < n)) as [Hx|Hx]; [destruct (decide (y < n)) as [Hy|Hy]|].
    + destruct (is_same_ok n u x y I Hx Hy) as (u1 & b & E & S1 & Z1 & I1 & _). rewrite E in H. cbn in H.
      injection H as <- _. apply (sizes_same n u); assumption.
    + unfold uf_is_same in H. rewrite (ui_n _ _ I) in H.
      destruct (Nat.ltb_spec y n), (Nat.ltb_spec x n); try lia; discriminate.
    + unfold uf_is_same in H. rewrite (ui_n _ _ I) in H.
      destruct (Nat.ltb_spec x n); try lia; discriminate.
  - destruct Ho as [H1 H2]. apply (find_rep_root n) in H1 as [Hx Rx]; [|exact I].
    apply (find_rep_root n) in H2 as [Hy Ry]; [|exact I].
    destruct (sizes_join n u x y I Hn HS Hx Hy Rx Ry) as (u1 & b & E & HS1). rewrite E in H. cbn in H.
    injection H as <- _. exact HS1.
  - destruct (decide (x < n)) as [Hx|Hx].
    + destruct (size_ok n u x I Hx) as (u1 & r & s & E & I1 & S1 & Z1 & _). rewrite E in H. cbn in H.
      injection H as <- _. apply (sizes_same n u); assumption.
    + unfold uf_size in H. rewrite (ui_n _ _ I) in H. destruct (Nat.ltb_spec x n); try lia; discriminate.
  - destruct (groups_ok n u I) as (u1 & gs & E & I1 & S1 & Z1 & _). rewrite E in H. cbn in H.
    injection H as <- _. apply (sizes_same n u); assumption.
Qed.

Lemma sizes_run n ops : (Z.of_nat n < 2 ^ 64)%Z -> forall u u' outs, UInv n u -> sizes_exact n u -> joins_reps u ops ->
  run uf_step u ops = Ok (u', outs) -> sizes_exact n u'.
Proof.
  intros Hn. induction ops as [|o ops IH]; intros u u' outs I HS HJ H; cbn [run] in H.
  - injection H as <- _. exact HS.
  - destruct HJ as [Ho HJ].
    destruct (uf_step u o) as [[u1 o1]| |] eqn:E; cbn [mbind res_bind] in H; try discriminate.
    destruct (run uf_step u1 ops) as [[u2 o2]| |] eqn:E2; cbn [mbind res_bind] in H; try discriminate.
    injection H as -> _. apply (IH u1 u' o2).
    + apply (step_inv n u o u1 o1); assumption.
    + apply (sizes_step n u o u1 o1); assumption.
    + apply (HJ u1 o1). reflexivity.
    + exact E2.
Qed.

Lemma size_reps n ops u x : (Z.of_nat n < 2 ^ 64)%Z -> joins_reps (uf_new n) ops -> uf_reached n ops u -> x < n ->
  ans (uf_size u x) = Ok (Z.of_nat (length (filter (fun y => sameb u x y = true) (seq 0 n)))).
Proof.
  intros Hn HJ R Hx. pose proof (reached_inv _ _ _ R) as I. destruct R as [outs R].
  pose proof (sizes_run n ops Hn _ _ _ (new_inv n) (sizes_new n) HJ R) as HS.
  destruct (size_ok n u x I Hx) as (u1 & r & s & E & I1 & S1 & Z1 & Rx & Hs). rewrite E. cbn. f_equal.
  rewrite (HS r (root_self _ _ _ Rx)) in Hs. injection Hs as <-. f_equal.
  apply filter_ext_len. intros y Hy. apply elem_of_seq in Hy.
  rewrite (sameb_rootf n) by (assumption || lia). rewrite (rootf_spec _ _ _ Rx), Nat.eqb_eq. split; congruence.
Qed.

Lemma joins_reps_ok n u x y : (Z.of_nat n < 2 ^ 64)%Z -> forall ops, joins_reps (uf_new n) ops -> uf_reached n ops u ->
  ans (uf_find u x) = Ok x -> ans (uf_find u y) = Ok y -> exists u' b, uf_join u x y = Ok (u', b).
Proof.
  intros Hn ops HJ R H1 H2. pose proof (reached_inv _ _ _ R) as I. destruct R as [outs R].
  pose proof (sizes_run n ops Hn _ _ _ (new_inv n) (sizes_new n) HJ R) as HS.
  apply (find_rep_root n) in H1 as [Hx Rx]; [|exact I]. apply (find_rep_root n) in H2 as [Hy Ry]; [|exact I].
  destruct (sizes_join n u x y I Hn HS Hx Hy Rx Ry) as (u' & b & E & _). eauto.
Qed.

Lemma groups_reached n ops u : uf_reached n ops u ->
  exists gs, ans (uf_groups u) = Ok gs /\
    (forall g, g ∈ gs -> g <> [] /\ StronglySorted lt g) /\
    (forall i, i < n <-> exists k g, gs !! k = Some g /\ i ∈ g) /\
    (forall k1 k2 g1 g2 a b, gs !! k1 = Some g1 -> gs !! k2 = Some g2 -> a ∈ g1 -> b ∈ g2 ->
       (k1 = k2 <-> sameb u a b = true)).
Proof.
  intros I%reached_inv. destruct (groups_ok n u I) as (u' & gs & E & I' & S' & Z' & H1 & H2 & H3 & H4).
  exists gs. rewrite E. split; [reflexivity|]. split; [exact H1|]. split.
  - intros i. split; [apply H2|]. intros (k & g & Hk & Hi). apply (H3 k g i Hk Hi).
  - intros k1 k2 g1 g2 a b G1 G2 Ha Hb. rewrite (sameb_spec n); [|exact I|apply (H3 k1 g1 a G1 Ha)|apply (H3 k2 g2 b G2 Hb)].
    apply (H4 k1 k2 g1 g2 a b G1 G2 Ha Hb).
Qed.

(** C10: find terminates on every reachable state, returns a representative, changes nobody's representative. *)
Theorem C10_find_canonical : forall n ops u i, uf_reached n ops u -> i < n ->
  exists u' r, uf_find u i = Ok (u', r) /\ r < n /\ ans (uf_find u r) = Ok r /\ ans (uf_find u' r) = Ok r /\
    forall j, ans (uf_find u' j) = ans (uf_find u j).
Proof. exact find_reached. Qed.
Print Assumptions C10_find_canonical.

(** C10: when calls panic. *)
Theorem C10_panics : forall n ops u, uf_reached n ops u ->
  (forall i, uf_find u i = Panic <-> n <= i) /\
  (forall x y, uf_is_same u x y = Panic <-> n <= x \/ n <= y) /\
  (forall x, uf_size u x = Panic <-> n <= x) /\
  (uf_groups u <> Panic) /\
  (forall x y, n <= x \/ n <= y -> uf_join u x y = Panic).
Proof. exact panics_reached. Qed.
Print Assumptions C10_panics.

(** C11 is false: join(0,1); join(0,2) takes 0 out of the set of 1. *)
Theorem C11_join_merges_refuted : exists n ops u x y u' b i j,
  uf_reached n ops u /\ x < n /\ y < n /\ i < n /\ j < n /\
  uf_join u x y = Ok (u', b) /\ sameb u i j = true /\ sameb u' i j = false.
Proof.
  exists 3, [UfJoin 0 1]. eexists. exists 0, 2. eexists. eexists. exists 0, 1.
  split; [eexists; vm_compute; reflexivity|]. do 4 (split; [lia|]).
  split; [vm_compute; reflexivity|]. split; vm_compute; reflexivity.
Qed.
Print Assumptions C11_join_merges_refuted.

(** C11, what holds when x is the representative of its set: exactly the two sets are merged. *)
Theorem C11_join_merges_partial : forall n ops u x y u' b, uf_reached n ops u -> x < n -> y < n ->
  ans (uf_find u x) = Ok x -> uf_join u x y = Ok (u', b) ->
  b = negb (sameb u x y) /\
  forall i j, i < n -> j < n ->
    sameb u' i j = sameb u i j || (sameb u i x && sameb u y j) || (sameb u i y && sameb u x j).
Proof. exact join_reached_rep. Qed.
Print Assumptions C11_join_merges_partial.

(** C11, what holds for every x: the return value, x and y end up together, sets other than x's keep their members together/apart. *)
Theorem C11_join_any_partial : forall n ops u x y u' b, uf_reached n ops u -> x < n -> y < n ->
  uf_join u x y = Ok (u', b) ->
  b = negb (sameb u x y) /\ sameb u' x y = true /\
  (forall i j, i < n -> j < n -> sameb u i x = false -> sameb u j x = false -> sameb u' i j = sameb u i j).
Proof. exact join_reached_any. Qed.
Print Assumptions C11_join_any_partial.

(** C11, what join(x,y) does in full, for every x: some vertices D of x's set, x among them but not its representative
    (unless that is x), move to y's set, and nothing else changes. *)
Theorem C11_join_moves_partial : forall n ops u x y u' b, uf_reached n ops u -> x < n -> y < n -> uf_join u x y = Ok (u', b) ->
  exists D : nat -> bool,
    (b = true -> D x = true) /\
    (forall i, i < n -> D i = true -> sameb u i x = true) /\
    (forall r, ans (uf_find u x) = Ok r -> r <> x -> D r = false) /\
    (forall i, i < n -> ans (uf_find u' i) = ans (uf_find u (if D i then y else i))) /\
    (forall i j, i < n -> j < n -> sameb u' i j = sameb u (if D i then y else i) (if D j then y else j)).
Proof. exact join_reached_moves. Qed.
Print Assumptions C11_join_moves_partial.

(** C12 is false: join(0,1); join(2,0): size(1) is 2 although {0,1,2} is one set. *)
Theorem C12_size_refuted : exists n ops u x s,
  uf_reached n ops u /\ x < n /\ ans (uf_size u x) = Ok s /\
  s <> Z.of_nat (length (filter (fun y => sameb u x y = true) (seq 0 n))).
Proof.
  exists 3, [UfJoin 0 1; UfJoin 2 0]. eexists. exists 1. eexists.
  split; [eexists; vm_compute; reflexivity|]. split; [lia|]. split; [vm_compute; reflexivity|].
  vm_compute. discriminate.
Qed.
Print Assumptions C12_size_refuted.

(** C12, what holds when every join of the history got two representatives. *)
Theorem C12_size_partial : forall n ops u x, (Z.of_nat n < 2 ^ 64)%Z -> joins_reps (uf_new n) ops ->
  uf_reached n ops u -> x < n ->
  ans (uf_size u x) = Ok (Z.of_nat (length (filter (fun y => sameb u x y = true) (seq 0 n)))).
Proof. exact size_reps. Qed.
Print Assumptions C12_size_partial.

(** C13: groups is the partition induced by is_same. *)
Theorem C13_groups : forall n ops u, uf_reached n ops u ->
  exists gs, ans (uf_groups u) = Ok gs /\
    (forall g, g ∈ gs -> g <> [] /\ StronglySorted lt g) /\
    (forall i, i < n <-> exists k g, gs !! k = Some g /\ i ∈ g) /\
    (forall k1 k2 g1 g2 a b, gs !! k1 = Some g1 -> gs !! k2 = Some g2 -> a ∈ g1 -> b ∈ g2 ->
       (k1 = k2 <-> sameb u a b = true)).
Proof. exact groups_reached. Qed.
Print Assumptions C13_groups.

(** A history on four elements in which the recorded sizes grow like Fibonacci numbers. *)
Definition fib_round : list uf_op := [UfJoin 2 3; UfJoin 2 0; UfJoin 3 2; UfJoin 3 1].
Definition fib_history (k : nat) : list uf_op := [UfJoin 2 0; UfJoin 3 1] ++ concat (replicate k fib_round).

(** C54 is false: with overflow checks on, a join of in-range indices panics after 184 joins on four elements. *)
Theorem C54_join_total_refuted : exists n ops u x y,
  uf_reached n ops u /\ x < n /\ y < n /\ uf_join u x y = Panic.
Proof.
  exists 4, (fib_history 45 ++ [UfJoin 2 3; UfJoin 2 0]). eexists. exists 3, 2.
  split; [eexists; vm_compute; reflexivity|]. do 2 (split; [lia|]). vm_compute. reflexivity.
Qed.
Print Assumptions C54_join_total_refuted.

(** C54, what holds: joins of representatives never panic. *)
Theorem C54_join_total_partial : forall n u x y, (Z.of_nat n < 2 ^ 64)%Z -> forall ops, joins_reps (uf_new n) ops ->
  uf_reached n ops u -> ans (uf_find u x) = Ok x -> ans (uf_find u y) = Ok y ->
  exists u' b, uf_join u x y = Ok (u', b).
Proof. exact joins_reps_ok. Qed.
Print Assumptions C54_join_total_partial.

(** ** How fast the stored sizes can grow: a join adds two different entries into one of them *)
Fixpoint fib (k : nat) : Z * Z := match k with 0 => (1, 2)%Z | S k => let '(a, b) := fib k in (b, a + b)%Z end.
Lemma fib_pos k : (1 <= (fib k).1 <= (fib k).2)%Z.
Proof. induction k as [|k IH]; cbn [fib]; [cbn; lia|]. destruct (fib k) as [a b]. cbn in *. lia. Qed.
Lemma fib_mono k l : k <= l -> ((fib k).2 <= (fib l).2)%Z.
Proof. induction 1 as [|l _ IH]; [lia|]. pose proof (fib_pos l). cbn [fib]. destruct (fib l) as [a b]. cbn in *. lia. Qed.
Definition small (k : nat) (sz : list Z) : Prop :=
  (forall i a, sz !! i = Some a -> (0 <= a <= (fib k).1)%Z) /\
  (forall i j a b, i <> j -> sz !! i = Some a -> sz !! j = Some b -> (a + b <= (fib k).2)%Z).
Lemma small_add k sz x y sx sy : small k sz -> x <> y -> sz !! x = Some sx -> sz !! y = Some sy -> small (S k) (<[y := (sy + sx)%Z]> sz).
Proof.
  intros [H1 H2] Hxy Ex Ey. pose proof (H1 _ _ Ex). pose proof (H1 _ _ Ey). pose proof (H2 _ _ _ _ Hxy Ex Ey). unfold small. cbn [fib]. destruct (fib k) as [p q] eqn:Ef. cbn [fst snd] in *.
  pose proof (fib_pos k) as Hp. rewrite Ef in Hp. cbn [fst snd] in Hp.
  assert (forall i a, i <> y -> <[y := (sy + sx)%Z]> sz !! i = Some a -> (0 <= a <= p)%Z) as Ho.
  { intros i a Hi E. rewrite list_lookup_insert_ne in E by congruence. exact (H1 _ _ E). }
  assert (forall a, <[y := (sy + sx)%Z]> sz !! y = Some a -> a = (sy + sx)%Z) as Hy.
  { intros a E. rewrite list_lookup_insert in E by (apply lookup_lt_Some in Ey; exact Ey). congruence. }
  split.
  - intros i a E. destruct (decide (i = y)) as [->|Hi]; [apply Hy in E; lia|]. pose proof (Ho _ _ Hi E). lia.
  - intros i j a b Hij Ea Eb. destruct (decide (i = y)) as [->|Hi]; [|destruct (decide (j = y)) as [->|Hj]].
    + apply Hy in Ea. pose proof (Ho j b ltac:(congruence) Eb). lia.
    + apply Hy in Eb. pose proof (Ho i a Hi Ea). lia.
    + rewrite list_lookup_insert_ne in Ea, Eb by congruence. pose proof (H2 _ _ _ _ Hij Ea Eb). lia.
Qed.
Lemma join_small n u x y k : UInv n u -> small k (uf_sz u) -> x < n -> y < n -> (uf_join u x y = Panic -> (2 ^ 64 <= (fib k).2)%Z) /\
  forall u' b, uf_join u x y = Ok (u', b) -> small (if b then S k else k) (uf_sz u').
Proof.
  intros I Hs Hx Hy. destruct (join_ok n u x y I Hx Hy) as [E|(u' & b & rx & ry & E & I' & Rx & Ry & Hb & H)].
  - rewrite E. split; [|discriminate]. intros _. unfold uf_join in E. rewrite (ui_n _ _ I) in E. destruct (Nat.ltb_spec x n); [|lia]. destruct (Nat.ltb_spec y n); [|lia]. cbn [rassert mbind res_bind] in E.
    destruct (find_ok n u x I Hx) as (u1 & rx & E1 & Rx & _ & S1 & Z1 & I1). rewrite E1 in E. cbn [mbind res_bind] in E.
    destruct (find_ok n u1 y I1 Hy) as (u2 & ry & E2 & Ry & _ & S2 & Z2 & I2). rewrite E2 in E. cbn [mbind res_bind] in E.
    apply (same_roots_iff (uf_fa u) (uf_fa u1)) in Ry; [|apply (ui_ac _ _ I)|exact S1].
    destruct (Nat.eqb_spec rx ry) as [Er|Hne]; [discriminate E|].
    destruct (lookup_lt_is_Some_2 (uf_sz u2) x) as [sx Hsx]; [rewrite (ui_sz _ _ I2); exact Hx|].
    destruct (lookup_lt_is_Some_2 (uf_sz u2) y) as [sy Hsy]; [rewrite (ui_sz _ _ I2); exact Hy|].
    rewrite (vget_ok _ _ _ Hsx), (vget_ok _ _ _ Hsy) in E. cbn [mbind res_bind] in E.
    destruct (if (sy <? sx)%Z then (ry, rx) else (rx, ry)) as [fx fy].
    rewrite vset_ok in E by (rewrite (ui_fa _ _ I2); exact Hx). cbn [mbind res_bind] in E.
    unfold uadd in E. destruct (Z.ltb_spec (sy + sx) (2 ^ 64)) as [|Hge].
    + cbn [mbind res_bind] in E. rewrite vset_ok in E by (rewrite (ui_sz _ _ I2); exact Hy). discriminate E.
    + rewrite Z2, Z1 in Hsx, Hsy. assert (x <> y) as Hxy by (intros ->; apply Hne; exact (root_det _ _ _ _ Rx Ry)). pose proof (proj2 Hs _ _ _ _ Hxy Hsx Hsy). lia.
  - split; [congruence|]. intros u2 b2 E2. rewrite E in E2. injection E2 as <- <-. destruct b.
    + destruct H as (fa1 & sx & sy & _ & _ & Ex & Ey & ->). apply (small_add k _ x y); auto. intros ->. apply (proj1 Hb eq_refl). exact (root_det _ _ _ _ Rx Ry).
    + destruct H as [_ ->]. exact Hs.
Qed.
(** The number of joins of a history that put two sets together. *)
Definition merged (x : uf_op * uf_out) : bool := match x with (UfJoin _ _, UfBool true) => true | _ => false end.
Definition merges (ops : list uf_op) (outs : list uf_out) : nat := length (filter (fun x => merged x = true) (zip ops outs)).
Lemma step_small n u o u' out k : UInv n u -> small k (uf_sz u) -> uf_step u o = Ok (u', out) -> small (if merged (o, out) then S k else k) (uf_sz u').
Proof.
  intros I Hs E. destruct o as [i|x y|x y|x|]; cbn [uf_step] in E.
  - destruct (decide (i < n)) as [Hi|Hi]; [|rewrite (find_panic n) in E by (assumption || lia); discriminate E].
    destruct (find_ok n u i I Hi) as (u1 & r & E1 & _ & _ & _ & Z1 & _). rewrite E1 in E. injection E as <- <-. rewrite Z1. exact Hs.
  - apply rbind_ok_inv in E as ([u1 b] & E & [= <- <-]). assert (x < n /\ y < n) as [Hx Hy].
    { unfold uf_is_same in E. rewrite (ui_n _ _ I) in E. destruct (Nat.ltb_spec x n); [|discriminate E]. destruct (Nat.ltb_spec y n); [|discriminate E]. auto. }
    destruct (is_same_ok n u x y I Hx Hy) as (u2 & c & E1 & _ & Z1 & _). rewrite E1 in E. injection E as <- <-. rewrite Z1. exact Hs.
  - apply rbind_ok_inv in E as ([u1 b] & E & [= <- <-]). assert (x < n /\ y < n) as [Hx Hy].
    { unfold uf_join in E. rewrite (ui_n _ _ I) in E. destruct (Nat.ltb_spec x n); [|discriminate E]. destruct (Nat.ltb_spec y n); [|discriminate E]. auto. }
    pose proof (proj2 (join_small n u x y k I Hs Hx Hy) _ _ E) as H. destruct b; exact H.
  - apply rbind_ok_inv in E as ([u1 b] & E & [= <- <-]). assert (x < n) as Hx.
    { unfold uf_size in E. rewrite (ui_n _ _ I) in E. destruct (Nat.ltb_spec x n); [|discriminate E]. auto. }
    destruct (size_ok n u x I Hx) as (u2 & r & z & E1 & _ & _ & Z1 & _). rewrite E1 in E. injection E as <- <-. rewrite Z1. exact Hs.
  - apply rbind_ok_inv in E as ([u1 b] & E & [= <- <-]). destruct (groups_ok n u I) as (u2 & gs & E1 & _ & _ & Z1 & _). rewrite E1 in E. injection E as <- <-. rewrite Z1. exact Hs.
Qed.
Lemma run_small n : forall ops u u' outs k, UInv n u -> small k (uf_sz u) -> run uf_step u ops = Ok (u', outs) -> small (merges ops outs + k) (uf_sz u').
Proof.
  induction ops as [|o ops IH]; intros u u' outs k I Hs E; cbn [run] in E; [injection E as <- <-; exact Hs|].
  apply rbind_ok_inv in E as ([u1 o1] & E1 & E). apply rbind_ok_inv in E as ([u2 o2] & E2 & [= <- <-]).
  pose proof (IH _ _ _ _ (step_inv _ _ _ _ _ I E1) (step_small _ _ _ _ _ _ I Hs E1) E2) as H. unfold merges. cbn [zip]. rewrite filter_cons. destruct (merged (o, o1)).
  - rewrite decide_True by reflexivity. cbn [length]. replace (S _ + k) with (merges ops o2 + S k) by (unfold merges; lia). exact H.
  - rewrite decide_False by discriminate. exact H.
Qed.
(** C54, what holds for joins of any vertices: as long as fewer than 91 joins have put two sets together, no join panics. *)
Theorem C54_few_joins_partial : forall n ops u outs x y, run uf_step (uf_new n) ops = Ok (u, outs) -> merges ops outs < 91 -> x < n -> y < n ->
  exists u' b, uf_join u x y = Ok (u', b).
Proof.
  intros n ops u outs x y E Hm Hx Hy. pose proof (run_inv n ops _ _ _ (new_inv n) E) as I.
  assert (small 0 (uf_sz (uf_new n))) as H0.
  { cbn [uf_new uf_sz]. split; [intros i a Ha|intros i j a b _ Ha Hb]; cbn; rewrite lookup_replicate in *; lia. }
  pose proof (run_small n ops _ _ _ 0 (new_inv n) H0 E) as Hs. rewrite Nat.add_0_r in Hs.
  destruct (join_small n u x y _ I Hs Hx Hy) as [Hp _]. destruct (join_ok n u x y I Hx Hy) as [Ep|(u' & b & _ & _ & E' & _)]; [|eauto].
  specialize (Hp Ep). pose proof (fib_mono (merges ops outs) 90 ltac:(lia)) as Hf. assert ((fib 90).2 < 2 ^ 64)%Z by (vm_compute; reflexivity). lia.
Qed.
Print Assumptions C54_few_joins_partial.

(** 90 joins of four elements, not of representatives: the next one is fine, and size(0) answers more than a thousand million. *)
Example C54_few_nonvacuous : exists u outs, run uf_step (uf_new 4) (fib_history 22) = Ok (u, outs) /\ merges (fib_history 22) outs = 90 /\
  exists z, ans (uf_size u 0) = Ok z /\ (10 ^ 9 < z)%Z.
Proof. eexists _, _. split; [vm_compute; reflexivity|]. split; [vm_compute; reflexivity|]. eexists. split; [vm_compute; reflexivity|]. vm_compute. reflexivity. Qed.

(** Non-vacuity: a reached state with a nested tree, and a history whose joins get representatives. *)
Example C10_nonvacuous : exists u,
  uf_reached 5 [UfJoin 0 1; UfJoin 1 2; UfJoin 3 4; UfFind 0] u /\ ans (uf_find u 0) = Ok 2 /\
  ans (uf_groups u) = Ok [[0; 1; 2]; [3; 4]] /\ ans (uf_find u 5) = Panic.
Proof. eexists. split; [eexists; vm_compute; reflexivity|]. repeat split; vm_compute; reflexivity. Qed.

Example C12_nonvacuous : joins_reps (uf_new 4) [UfJoin 0 1; UfJoin 1 2] /\
  exists u, uf_reached 4 [UfJoin 0 1; UfJoin 1 2] u /\ ans (uf_size u 0) = Ok 3%Z.
Proof.
  split.
  - split; [split; vm_compute; reflexivity|]. intros u out H. vm_compute in H. injection H as <- _.
    split; [split; vm_compute; reflexivity|]. intros; exact I.
  - eexists. split; [eexists; vm_compute; reflexivity|]. vm_compute. reflexivity.
Qed.

(** join(0,1); join(0,2): vertex 0 is no representative any more and moves to 2 alone; join(1,2) instead moves both. *)
Example C11_nonvacuous : exists u u1 u2, uf_reached 3 [UfJoin 0 1] u /\
  uf_join u 0 2 = Ok (u1, true) /\ sameb u 0 1 = true /\ sameb u1 0 2 = true /\ sameb u1 0 1 = false /\
  ans (uf_find u 1) = Ok 1 /\ uf_join u 1 2 = Ok (u2, true) /\ sameb u2 0 2 = true /\ sameb u2 0 1 = true.
Proof. do 3 eexists. split; [eexists; vm_compute; reflexivity|]. repeat split; vm_compute; reflexivity. Qed.
