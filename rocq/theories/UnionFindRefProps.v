(** Properties of whole histories of src/data_structure/union_find.rs (C62, C63). *)
From Coq Require Import Sorting.Sorted.
From Verif Require Import Prelude ArraySpec UnionFindModel UnionFindProof UnionFindSpec.

Lemma sorted_ext (l1 l2 : list nat) : StronglySorted lt l1 -> StronglySorted lt l2 ->
  (forall i, i ∈ l1 <-> i ∈ l2) -> l1 = l2.
Proof.
  intros H1. revert l2. induction H1 as [|a l1 Hs IH Ha]; intros l2 H2 E.
  - destruct l2 as [|b l2]; [reflexivity|]. exfalso. apply (not_elem_of_nil b), E. constructor.
  - destruct H2 as [|b l2 Hs2 Hb]; [exfalso; apply (not_elem_of_nil a), E; constructor|].
    rewrite Forall_forall in Ha, Hb.
    assert (a = b) as <-.
    { pose proof (proj1 (E a) ltac:(constructor)) as H1. pose proof (proj2 (E b) ltac:(constructor)) as H2.
      apply elem_of_cons in H1 as [->|H1]; [reflexivity|]. apply elem_of_cons in H2 as [->|H2]; [reflexivity|].
      specialize (Ha _ H2). specialize (Hb _ H1). lia. }
    f_equal. apply IH; [exact Hs2|]. intros i. split; intros Hi.
    + pose proof (proj1 (E i) ltac:(constructor; exact Hi)) as H. apply elem_of_cons in H as [->|H]; [|exact H].
      specialize (Ha _ Hi). lia.
    + pose proof (proj2 (E i) ltac:(constructor; exact Hi)) as H. apply elem_of_cons in H as [->|H]; [|exact H].
      specialize (Hb _ Hi). lia.
Qed.

Lemma filter_seq_sorted (P : nat -> Prop) `{!forall x, Decision (P x)} n : forall s, StronglySorted lt (filter P (seq s n)).
Proof.
  induction n as [|n IH]; intros s; cbn [seq]; [constructor|].
  destruct (decide (P s)) as [HP|HP]; [rewrite filter_cons_True by exact HP|rewrite filter_cons_False by exact HP; apply IH].
  constructor; [apply IH|]. apply Forall_forall. intros i Hi. apply elem_of_list_filter in Hi as [_ Hi].
  apply elem_of_seq in Hi. lia.
Qed.

(** [lab] holds the representatives. *)
Record Lab (n : nat) (u : uf) (lab : list nat) : Prop := {
  lb_inv : UInv n u;
  lb_len : length lab = n;
  lb_root : forall i r, lab !! i = Some r -> root (uf_fa u) i r }.

Lemma lab_iff n u lab i r : Lab n u lab -> (lab !! i = Some r <-> i < n /\ root (uf_fa u) i r).
Proof.
  intros L. split.
  - intros H. split; [|apply (lb_root _ _ _ L _ _ H)]. apply lookup_lt_Some in H. rewrite (lb_len _ _ _ L) in H. exact H.
  - intros [Hi Hr]. destruct (lookup_lt_is_Some_2 lab i) as [s Hs]; [rewrite (lb_len _ _ _ L); exact Hi|].
    rewrite Hs. f_equal. apply (root_det (uf_fa u) i); [apply (lb_root _ _ _ L _ _ Hs)|exact Hr].
Qed.

Lemma lab_same n u u' lab : Lab n u lab -> UInv n u' -> same_roots (uf_fa u) (uf_fa u') -> Lab n u' lab.
Proof. intros L I S. split; [exact I|apply (lb_len _ _ _ L)|]. intros i r H. apply S. apply (lb_root _ _ _ L). exact H. Qed.

Lemma lab_none n u lab i : Lab n u lab -> n <= i -> lab !! i = None.
Proof. intros L Hi. apply lookup_ge_None_2. rewrite (lb_len _ _ _ L). exact Hi. Qed.

Lemma lab_some n u lab i : Lab n u lab -> i < n -> exists r, lab !! i = Some r /\ root (uf_fa u) i r.
Proof.
  intros L Hi. destruct (lookup_lt_is_Some_2 lab i) as [s Hs]; [rewrite (lb_len _ _ _ L); exact Hi|].
  exists s. split; [exact Hs|]. apply (lb_root _ _ _ L _ _ Hs).
Qed.

Lemma lab_new n : Lab n (uf_new n) (seq 0 n).
Proof.
  split; [apply new_inv|apply seq_length|]. intros i r H. apply lookup_seq in H as [-> H]. cbn [uf_new uf_fa].
  exists 0. constructor. apply lookup_seq. auto.
Qed.

Lemma lab_count n u lab a : Lab n u lab -> length (filter (fun r => r = a) lab) = count (rootf (uf_fa u)) a n.
Proof.
  intros L. unfold count.
  assert (lab = map (rootf (uf_fa u)) (seq 0 n)) as ->.
  { apply list_eq. intros i. destruct (decide (i < n)) as [Hi|Hi].
    - destruct (lab_some n u lab i L Hi) as (r & Hr & R). rewrite Hr. symmetry.
      rewrite list_lookup_fmap, lookup_seq_lt by exact Hi. cbn. f_equal. apply rootf_spec. exact R.
    - rewrite (lab_none n u lab i L) by lia. symmetry. apply lookup_ge_None_2. rewrite fmap_length, seq_length. lia. }
  clear L. generalize (seq 0 n) as l. induction l as [|x l IH]; [reflexivity|]. cbn [map].
  destruct (decide (rootf (uf_fa u) x = a)) as [E|E].
  - rewrite !filter_cons_True by exact E. cbn. f_equal. exact IH.
  - rewrite !filter_cons_False by exact E. exact IH.
Qed.

Lemma lab_groups_ok n u lab : Lab n u lab ->
  exists u', uf_groups u = Ok (u', lab_groups lab) /\ UInv n u' /\ same_roots (uf_fa u) (uf_fa u') /\ uf_sz u' = uf_sz u.
Proof.
  intros L. unfold uf_groups.
  destruct (groups_loop_ok n u (lb_inv _ _ _ L)) as (u' & res & -> & I' & S' & Z' & Lr & Hres). cbn [mbind res_bind].
  exists u'. split; [|auto]. do 2 f_equal. unfold lab_groups. f_equal. rewrite (lb_len _ _ _ L).
  apply list_eq. intros r. destruct (decide (r < n)) as [Hr|Hr].
  - destruct (lookup_lt_is_Some_2 res r) as [g Hg]; [lia|]. rewrite Hg. symmetry.
    rewrite list_lookup_fmap, lookup_seq_lt by exact Hr. cbn. f_equal.
    destruct (Hres r g Hg) as [Hs Hm]. apply sorted_ext; [apply filter_seq_sorted|exact Hs|].
    intros i. rewrite Hm, elem_of_list_filter, elem_of_seq, (lab_iff n u lab i r L). split; intuition lia.
  - rewrite !lookup_ge_None_2; [reflexivity|rewrite fmap_length, seq_length; lia|lia].
Qed.

(** Answers of the asking calls, and what they leave behind. *)
Lemma query_step n u lab o : Lab n u lab -> is_query o = true ->
  (match o with UfSize _ => sizes_exact n u | _ => True end) ->
  match uf_step u o with
  | Ok (u', out) => uf_spec_step lab o = Ok (lab, out) /\ Lab n u' lab /\ uf_sz u' = uf_sz u /\ same_roots (uf_fa u) (uf_fa u')
  | Panic => uf_spec_step lab o = Panic
  | Diverge => False
  end.
Proof.
  intros L Q HS. pose proof (lb_inv _ _ _ L) as I. destruct o as [i|x y|x y|x|]; try discriminate; cbn [uf_step uf_spec_step].
  - destruct (decide (i < n)) as [Hi|Hi].
    + destruct (find_ok n u i I Hi) as (u1 & r & -> & R & _ & S1 & Z1 & I1). cbn [mbind res_bind].
      rewrite (proj2 (lab_iff n u lab i r L)) by auto. split; [reflexivity|]. split; [apply (lab_same n u); assumption|auto].
    + rewrite (find_panic n) by (assumption || lia). cbn. rewrite (lab_none n u lab i L) by lia. reflexivity.
  - destruct (decide (x < n)) as [Hx|Hx]; [destruct (decide (y < n)) as [Hy|Hy]|].
    + destruct (is_same_ok n u x y I Hx Hy) as (u1 & b & -> & S1 & Z1 & I1 & Hb). cbn [mbind res_bind].
      destruct (lab_some n u lab x L Hx) as (rx & -> & Rx). destruct (lab_some n u lab y L Hy) as (ry & -> & Ry).
      split; [|split; [apply (lab_same n u); assumption|auto]]. do 3 f_equal. apply eq_true_iff_eq. rewrite Hb, Nat.eqb_eq.
      split; [intros ->; eauto|]. intros (r & H1 & H2). rewrite (root_det _ _ _ _ Rx H1), (root_det _ _ _ _ Ry H2). reflexivity.
    + unfold uf_is_same. rewrite (ui_n _ _ I). destruct (Nat.ltb_spec x n); [|lia]. destruct (Nat.ltb_spec y n); [lia|]. cbn.
      rewrite (lab_none n u lab y L) by lia. destruct (lab !! x); reflexivity.
    + unfold uf_is_same. rewrite (ui_n _ _ I). destruct (Nat.ltb_spec x n); [lia|]. cbn.
      rewrite (lab_none n u lab x L) by lia. reflexivity.
  - destruct (decide (x < n)) as [Hx|Hx].
    + destruct (size_ok n u x I Hx) as (u1 & r & s & -> & I1 & S1 & Z1 & R & Hs). cbn [mbind res_bind].
      rewrite (proj2 (lab_iff n u lab x r L)) by auto. split; [|split; [apply (lab_same n u); assumption|auto]].
      rewrite (HS r (root_self _ _ _ R)) in Hs. injection Hs as <-. rewrite (lab_count n u lab r L). reflexivity.
    + unfold uf_size. rewrite (ui_n _ _ I). destruct (Nat.ltb_spec x n); [lia|]. cbn.
      rewrite (lab_none n u lab x L) by lia. reflexivity.
  - destruct (lab_groups_ok n u lab L) as (u1 & -> & I1 & S1 & Z1). cbn [mbind res_bind].
    split; [reflexivity|]. split; [apply (lab_same n u); assumption|auto].
Qed.

Lemma join_step n u lab x y : (Z.of_nat n < 2 ^ 64)%Z -> Lab n u lab -> sizes_exact n u -> join_of_reps lab (UfJoin x y) ->
  match uf_join u x y with
  | Ok (u', b) => exists lab', uf_spec_step lab (UfJoin x y) = Ok (lab', UfBool b) /\ Lab n u' lab' /\ sizes_exact n u'
  | Panic => uf_spec_step lab (UfJoin x y) = Panic
  | Diverge => False
  end.
Proof.
  intros Hn L HS HJ. pose proof (lb_inv _ _ _ L) as I. cbn [join_of_reps] in HJ. rewrite (lb_len _ _ _ L) in HJ.
  cbn [uf_spec_step]. destruct (decide (x < n)) as [Hx|Hx]; [destruct (decide (y < n)) as [Hy|Hy]|].
  - destruct (HJ Hx Hy) as [Lx Ly]. rewrite Lx, Ly.
    pose proof (lb_root _ _ _ L _ _ Lx) as Rx. pose proof (lb_root _ _ _ L _ _ Ly) as Ry.
    destruct (sizes_join n u x y I Hn HS Hx Hy Rx Ry) as (u' & b & E & HS'). rewrite E.
    destruct (join_ok n u x y I Hx Hy) as [E'|(u1 & b1 & rx & ry & E' & I' & Rx' & Ry' & Hb & Hcase)]; [congruence|].
    rewrite E in E'. injection E' as <- <-.
    assert (rx = x) as -> by (apply (root_det (uf_fa u) x); assumption).
    assert (ry = y) as -> by (apply (root_det (uf_fa u) y); assumption).
    eexists. split; [do 3 f_equal; apply eq_true_iff_eq; rewrite Hb, negb_true_iff, Nat.eqb_neq; reflexivity|].
    split; [|exact HS']. split; [exact I'|rewrite map_length; apply (lb_len _ _ _ L)|].
    intros i r Hr. rewrite list_lookup_fmap in Hr. destruct (lab !! i) as [s|] eqn:Hs; [|discriminate]. injection Hr as <-.
    pose proof (lb_root _ _ _ L _ _ Hs) as Rs. destruct b.
    + destruct Hcase as (fa1 & sx & sy & S1 & Efa & _). rewrite Efa.
      pose proof (link_merge fa1 x y y i s (proj2 S1 _ _ Rx) (proj2 S1 _ _ Ry) (proj1 Hb eq_refl) (proj2 S1 _ _ Rs)) as H.
      destruct (decide (s = x)) as [->|Hne]; [rewrite Nat.eqb_refl; exact H|].
      destruct (Nat.eqb_spec s x); [contradiction|exact H].
    + assert (x = y) as <- by (destruct (decide (x = y)) as [|Hne]; [assumption|apply Hb in Hne; discriminate]).
      destruct Hcase as [S1 _]. apply S1. destruct (Nat.eqb_spec s x) as [->|]; exact Rs.
  - unfold uf_join. rewrite (ui_n _ _ I). destruct (Nat.ltb_spec x n); [|lia]. destruct (Nat.ltb_spec y n); [lia|]. cbn.
    rewrite (lab_none n u lab y L) by lia. destruct (lab !! x); reflexivity.
  - unfold uf_join. rewrite (ui_n _ _ I). destruct (Nat.ltb_spec x n); [lia|]. cbn.
    rewrite (lab_none n u lab x L) by lia. reflexivity.
Qed.

Lemma run_refines n : (Z.of_nat n < 2 ^ 64)%Z -> forall ops u lab, Lab n u lab -> sizes_exact n u -> joins_of_reps lab ops ->
  fmap snd (run uf_step u ops) = fmap snd (run uf_spec_step lab ops).
Proof.
  intros Hn. induction ops as [|o ops IH]; intros u lab L HS HJ; [reflexivity|].
  destruct HJ as [Ho HJ]. cbn [run].
  assert (match uf_step u o with
    | Ok (u', out) => exists lab', uf_spec_step lab o = Ok (lab', out) /\ Lab n u' lab' /\ sizes_exact n u'
    | Panic => uf_spec_step lab o = Panic
    | Diverge => False end) as H.
  { destruct (is_query o) eqn:Q.
    - pose proof (query_step n u lab o L Q) as H. destruct (uf_step u o) as [[u' out]| |].
      + destruct H as (H1 & H2 & H3 & H4); [destruct o; auto|]. exists lab. split; [exact H1|]. split; [exact H2|].
        apply (sizes_same n u u'); try assumption. apply (lb_inv _ _ _ L).
      + apply H. destruct o; auto.
      + apply H. destruct o; auto.
    - destruct o as [| |x y| |]; try discriminate. cbn [uf_step].
      pose proof (join_step n u lab x y Hn L HS Ho) as H. destruct (uf_join u x y) as [[u' b]| |]; exact H. }
  destruct (uf_step u o) as [[u' out]| |].
  - destruct H as (lab' & E & L' & HS'). rewrite E in HJ |- *. cbn [mbind res_bind].
    specialize (IH u' lab' L' HS' HJ).
    destruct (run uf_step u' ops) as [[u2 outs]| |], (run uf_spec_step lab' ops) as [[lab2 outs2]| |]; cbn in IH |- *; congruence.
  - rewrite H. reflexivity.
  - contradiction.
Qed.

(** C62: if every join gets the representatives of the two sets, every history answers (and panics) exactly as a plain
    labelling of the vertices. *)
Theorem C62_union_find_refines : forall n ops, (Z.of_nat n < 2 ^ 64)%Z -> joins_of_reps (seq 0 n) ops ->
  fmap snd (run uf_step (uf_new n) ops) = fmap snd (run uf_spec_step (seq 0 n) ops).
Proof. intros n ops Hn HJ. apply (run_refines n Hn); [apply lab_new|apply sizes_new|exact HJ]. Qed.
Print Assumptions C62_union_find_refines.

Example C62_nonvacuous :
  let ops := [UfJoin 0 1; UfJoin 3 4; UfJoin 1 4; UfSize 3; UfFind 0; UfSame 2 3; UfGroups; UfJoin 4 4] in
  joins_of_reps (seq 0 5) ops /\
  fmap snd (run uf_step (uf_new 5) ops) =
    Ok [UfBool true; UfBool true; UfBool true; UfNum 4; UfIdx 4; UfBool false; UfLists [[2]; [0; 1; 3; 4]]; UfBool false].
Proof. split; [cbn; repeat split; auto; lia|vm_compute; reflexivity]. Qed.

(** C63 is false: find(0) compresses the path 0 -> 1 -> 2, and the later join(1,3) then leaves 0 behind. *)
Theorem C63_queries_refuted : exists n ops1 q ops2 u u1 out,
  is_query q = true /\ (exists outs, run uf_step (uf_new n) ops1 = Ok (u, outs)) /\ uf_step u q = Ok (u1, out) /\
  fmap snd (run uf_step u ops2) = Ok [UfBool true; UfBool true] /\ fmap snd (run uf_step u1 ops2) = Ok [UfBool true; UfBool false].
Proof.
  exists 4, [UfJoin 0 1; UfJoin 1 2], (UfFind 0), [UfJoin 1 3; UfSame 0 1]. eexists _, _, _.
  split; [reflexivity|]. split; [eexists; vm_compute; reflexivity|]. repeat split; vm_compute; reflexivity.
Qed.
Print Assumptions C63_queries_refuted.

Lemma lab_of n u : UInv n u -> exists lab, Lab n u lab.
Proof.
  intros I. exists (map (rootf (uf_fa u)) (seq 0 n)). split; [exact I|rewrite map_length; apply seq_length|].
  intros i r H. rewrite list_lookup_fmap in H. destruct (seq 0 n !! i) as [j|] eqn:E; [|discriminate].
  apply lookup_seq in E as [-> Hi]. cbn in H. injection H as <-.
  destruct (ui_ac _ _ I i) as [r Hr]; [rewrite (ui_fa _ _ I); exact Hi|]. cbn. rewrite (rootf_spec _ _ _ Hr). exact Hr.
Qed.

(** Two states with the same representatives and the same recorded sizes answer the same. *)
Lemma step_alike n u v lab o : Lab n u lab -> Lab n v lab -> uf_sz v = uf_sz u -> is_query o = true ->
  match uf_step u o, uf_step v o with
  | Ok (u', a), Ok (v', b) => a = b /\ Lab n u' lab /\ Lab n v' lab /\ uf_sz u' = uf_sz u /\ uf_sz v' = uf_sz v
  | Panic, Panic => True
  | _, _ => False
  end.
Proof.
  intros L M Z Q. destruct (match o with UfSize _ => true | _ => false end) eqn:Hz.
  { destruct o as [i|x y|x y|x|]; try discriminate.
    cbn [uf_step]. pose proof (lb_inv _ _ _ L) as I. pose proof (lb_inv _ _ _ M) as J. destruct (decide (x < n)) as [Hx|Hx].
    - destruct (size_ok n u x I Hx) as (u1 & r & s & -> & I1 & S1 & Z1 & R & Hs).
      destruct (size_ok n v x J Hx) as (v1 & r' & s' & -> & J1 & T1 & Z1' & R' & Hs'). cbn [mbind res_bind].
      assert (r = r') as <-.
      { destruct (lab_some n u lab x L Hx) as (a & Ha & Ra). rewrite (root_det _ _ _ _ R Ra).
        apply (root_det (uf_fa v) x); [apply (lb_root _ _ _ M); exact Ha|exact R']. }
      split; [rewrite Z, Hs in Hs'; congruence|]. split; [apply (lab_same n u); assumption|].
      split; [apply (lab_same n v); assumption|auto].
    - unfold uf_size. rewrite (ui_n _ _ I), (ui_n _ _ J). destruct (Nat.ltb_spec x n); [lia|]. exact Logic.I. }
  assert (match o with UfSize _ => sizes_exact n u | _ => True end) as Hu by (destruct o; (discriminate || exact Logic.I)).
  assert (match o with UfSize _ => sizes_exact n v | _ => True end) as Hv by (destruct o; (discriminate || exact Logic.I)).
  pose proof (query_step n u lab o L Q Hu) as A. pose proof (query_step n v lab o M Q Hv) as B.
  destruct (uf_step u o) as [[u' a]| |]; destruct (uf_step v o) as [[v' b]| |]; try contradiction;
    try (destruct A as (A1 & A2 & A3 & A4)); try (destruct B as (B1 & B2 & B3 & B4)); try congruence; try exact Logic.I.
  split; [congruence|]. auto.
Qed.

Lemma queries_alike n lab ops : forall u v, Lab n u lab -> Lab n v lab -> uf_sz v = uf_sz u -> Forall (fun o => is_query o = true) ops ->
  fmap snd (run uf_step u ops) = fmap snd (run uf_step v ops).
Proof.
  induction ops as [|o ops IH]; intros u v L M Z HQ; [reflexivity|]. apply Forall_cons in HQ as [Q HQ]. cbn [run].
  pose proof (step_alike n u v lab o L M Z Q) as H. destruct (uf_step u o) as [[u' a]| |], (uf_step v o) as [[v' b]| |]; try contradiction; [|reflexivity].
  destruct H as (-> & L' & M' & Z1 & Z2). cbn [mbind res_bind]. specialize (IH u' v' L' M' ltac:(congruence) HQ).
  destruct (run uf_step u' ops) as [[u2 o2]| |], (run uf_step v' ops) as [[v2 o3]| |]; cbn in IH |- *; congruence.
Qed.

(** C63, what holds in every state reached by any calls: find, is_same, size and groups change no answer of the
    find, is_same, size and groups calls that follow up to the next join. *)
Theorem C63_queries_partial : forall n ops1 u q u1 out ops2,
  (exists outs, run uf_step (uf_new n) ops1 = Ok (u, outs)) -> is_query q = true -> uf_step u q = Ok (u1, out) ->
  Forall (fun o => is_query o = true) ops2 ->
  fmap snd (run uf_step u1 ops2) = fmap snd (run uf_step u ops2).
Proof.
  intros n ops1 u q u1 out ops2 [outs R] Q E HQ.
  pose proof (run_inv n ops1 _ _ _ (new_inv n) R) as I. destruct (lab_of n u I) as [lab L].
  pose proof (step_alike n u u lab q L L eq_refl Q) as H. rewrite E in H. destruct H as (_ & L1 & _ & Z1 & _).
  apply (queries_alike n lab); auto.
Qed.
Print Assumptions C63_queries_partial.

Lemma run_app {St Op Out} (step : St -> Op -> res (St * Out)) ops1 : forall s ops2,
  run step s (ops1 ++ ops2) = ('(s1, o1) ← run step s ops1; '(s2, o2) ← run step s1 ops2; Ok (s2, o1 ++ o2)).
Proof.
  induction ops1 as [|o ops1 IH]; intros s ops2; cbn [run app mbind res_bind].
  - destruct (run step s ops2) as [[s2 o2]| |]; reflexivity.
  - destruct (step s o) as [[s1 o1]| |]; cbn [mbind res_bind]; [|reflexivity|reflexivity]. rewrite IH.
    destruct (run step s1 ops1) as [[s2 o2]| |]; cbn [mbind res_bind]; [|reflexivity|reflexivity].
    destruct (run step s2 ops2) as [[s3 o3]| |]; reflexivity.
Qed.

Lemma reps_app ops1 : forall lab ops2, joins_of_reps lab (ops1 ++ ops2) <->
  joins_of_reps lab ops1 /\ match run uf_spec_step lab ops1 with Ok (lab', _) => joins_of_reps lab' ops2 | _ => True end.
Proof.
  induction ops1 as [|o ops1 IH]; intros lab ops2; cbn [run app joins_of_reps].
  - split; [intros H; split; [exact I|exact H]|intros [_ H]; exact H].
  - destruct (uf_spec_step lab o) as [[lab1 o1]| |]; cbn [mbind res_bind]; [|tauto|tauto]. rewrite IH.
    destruct (run uf_spec_step lab1 ops1) as [[lab2 o2]| |]; cbn [mbind res_bind]; tauto.
Qed.

Lemma spec_query lab o : is_query o = true -> match uf_spec_step lab o with Ok (lab', _) => lab' = lab | _ => True end.
Proof.
  intros Q. destruct o as [i|x y|x y|x|]; try discriminate; cbn [uf_spec_step]; try (destruct (lab !! _); auto; fail); [|reflexivity].
  destruct (lab !! x), (lab !! y); auto.
Qed.

(** C63, what holds when joins get representatives: leaving the call out changes nothing else of the history, joins included. *)
Theorem C63_queries_reps_partial : forall n ops1 q ops2 outs1 out outs2, (Z.of_nat n < 2 ^ 64)%Z ->
  joins_of_reps (seq 0 n) (ops1 ++ ops2) -> is_query q = true -> length outs1 = length ops1 ->
  fmap snd (run uf_step (uf_new n) (ops1 ++ q :: ops2)) = Ok (outs1 ++ out :: outs2) ->
  fmap snd (run uf_step (uf_new n) (ops1 ++ ops2)) = Ok (outs1 ++ outs2).
Proof.
  intros n ops1 q ops2 outs1 out outs2 Hn HJ Q Hlen H.
  assert (joins_of_reps (seq 0 n) (ops1 ++ q :: ops2)) as HJ'.
  { apply reps_app in HJ as [H1 H2]. apply reps_app. split; [exact H1|].
    destruct (run uf_spec_step (seq 0 n) ops1) as [[lab o1]| |]; [|auto|auto]. cbn [joins_of_reps].
    split; [destruct q; try discriminate; exact I|]. pose proof (spec_query lab q Q) as S.
    destruct (uf_spec_step lab q) as [[lab' o]| |]; [subst lab'; exact H2|auto|auto]. }
  rewrite (C62_union_find_refines n _ Hn HJ') in H. rewrite (C62_union_find_refines n _ Hn HJ).
  rewrite run_app in H. rewrite run_app.
  assert (Hrl : forall ops lab lab' os, run uf_spec_step lab ops = Ok (lab', os) -> length os = length ops).
  { clear. induction ops as [|o ops IH]; intros lab lab' os E; cbn [run] in E; [injection E as _ <-; reflexivity|].
    apply rbind_ok_inv in E as ([l1 o1] & E1 & E). apply rbind_ok_inv in E as ([l2 o2] & E2 & E). injection E as _ <-.
    cbn. f_equal. apply (IH _ _ _ E2). }
  destruct (run uf_spec_step (seq 0 n) ops1) as [[lab o1]| |] eqn:R1; cbn [mbind res_bind fmap res_fmap] in H |- *; try discriminate.
  cbn [run] in H. pose proof (spec_query lab q Q) as S.
  destruct (uf_spec_step lab q) as [[lab' o]| |]; cbn [mbind res_bind] in H; try discriminate. subst lab'.
  destruct (run uf_spec_step lab ops2) as [[lab2 o2]| |]; cbn in H |- *; try discriminate. injection H as H.
  apply app_inj_1 in H as [-> H]; [|rewrite (Hrl _ _ _ _ R1); congruence]. congruence.
Qed.
Print Assumptions C63_queries_reps_partial.

Example C63_nonvacuous :
  joins_of_reps (seq 0 4) ([UfJoin 0 1; UfJoin 1 2] ++ [UfJoin 2 3; UfSame 0 1; UfGroups]) /\
  fmap snd (run uf_step (uf_new 4) ([UfJoin 0 1; UfJoin 1 2] ++ UfFind 0 :: [UfJoin 2 3; UfSame 0 1; UfGroups]))
    = Ok ([UfBool true; UfBool true] ++ UfIdx 2 :: [UfBool true; UfBool true; UfLists [[0; 1; 2; 3]]]).
Proof. split; [cbn; repeat split; auto; lia|vm_compute; reflexivity]. Qed.

(** C13: the exact result of groups in every state reached by any calls, in terms of find: the sets in the order of their
    representatives, each in increasing order; [lab] lists the representatives. *)
Theorem C13_groups_exact : forall n ops u lab, (exists outs, run uf_step (uf_new n) ops = Ok (u, outs)) ->
  length lab = n -> (forall i r, lab !! i = Some r -> fmap snd (uf_find u i) = Ok r) ->
  fmap snd (uf_groups u) = Ok (lab_groups lab).
Proof.
  intros n ops u lab [outs R] Hl Hf. pose proof (run_inv n ops _ _ _ (new_inv n) R) as I.
  assert (Lab n u lab) as L.
  { split; [exact I|exact Hl|]. intros i r H. specialize (Hf i r H). apply lookup_lt_Some in H. rewrite Hl in H.
    destruct (find_ok n u i I H) as (u1 & r1 & E & R1 & _). rewrite E in Hf. cbn in Hf. injection Hf as <-. exact R1. }
  destruct (lab_groups_ok n u lab L) as (u1 & -> & _). reflexivity.
Qed.
Print Assumptions C13_groups_exact.

Example C13_exact_nonvacuous : exists u, (exists outs, run uf_step (uf_new 5) [UfJoin 0 3; UfJoin 1 2; UfJoin 0 4] = Ok (u, outs)) /\
  (forall i r, [4; 2; 2; 3; 4] !! i = Some r -> fmap snd (uf_find u i) = Ok r) /\
  fmap snd (uf_groups u) = Ok [[1; 2]; [3]; [0; 4]].
Proof.
  eexists. split; [eexists; vm_compute; reflexivity|]. split; [|vm_compute; reflexivity].
  intros i r H. do 5 (destruct i as [|i]; [injection H as <-; vm_compute; reflexivity|]). discriminate.
Qed.
