(** Union-find: how many calls of `find`. *)
From stdpp Require Import relations.
From Verif Require Import Prelude ArraySpec Eff UnionFindModel UnionFindProof GraphWorkModel GraphWorkSpec AhoWorkSpec UfWorkModel UfWorkSpec.

(** ** Descendants *)
Inductive reach (fa : list nat) : nat -> nat -> Prop :=
| re_refl i : i < length fa -> reach fa i i
| re_step i j v : fa !! i = Some j -> j <> i -> reach fa j v -> reach fa i v.

Fixpoint up (fuel : nat) (fa : list nat) (i : nat) : list nat :=
  match fuel with
  | O => []
  | S fuel => i :: match fa !! i with Some j => if j =? i then [] else up fuel fa j | None => [] end
  end.

Lemma up_reach fa : forall fuel d i r v, rootof fa d i r -> d < fuel -> (v ∈ up fuel fa i <-> reach fa i v).
Proof.
  induction fuel as [|fuel IH]; intros d i r v H Hd; [lia|]. pose proof (rootof_lt _ _ _ _ H) as [Hi _].
  inversion H as [i' Hi'|d1 i1 j1 r1 Hi1 Hne1 Hr1]; subst; cbn [up].
  - rewrite Hi', Nat.eqb_refl. rewrite elem_of_list_singleton. split; [intros ->; constructor; exact Hi|].
    intros R. inversion R as [|? j ? E Hne R']; subst; [reflexivity|congruence].
  - rewrite Hi1. destruct (Nat.eqb_spec j1 i); [contradiction|]. rewrite elem_of_cons, (IH d1 j1 r v Hr1) by lia. split.
    + intros [->|R]; [constructor; exact Hi|econstructor; eassumption].
    + intros R. inversion R as [|? j ? E Hne R']; subst; [left; reflexivity|right]. assert (j = j1) as -> by congruence. exact R'.
Qed.

Definition desc (fa : list nat) (v : nat) : nat := length (filter (fun i => v ∈ up (S (length fa)) fa i) (seq 0 (length fa))).

Lemma up_iff fa i v : acyclic fa -> i < length fa -> (v ∈ up (S (length fa)) fa i <-> reach fa i v).
Proof. intros HA Hi. destruct (HA i Hi) as [r [d H]]. apply (up_reach fa _ d i r); [exact H|]. apply rootof_depth in H. lia. Qed.

Lemma filter_len_le {A} (P Q : A -> Prop) `{!forall x, Decision (P x)} `{!forall x, Decision (Q x)} (l : list A) :
  (forall x, x ∈ l -> P x -> Q x) -> length (filter P l) <= length (filter Q l).
Proof.
  induction l as [|a l IH]; intros HPQ; [reflexivity|]. assert (length (filter P l) <= length (filter Q l)) by (apply IH; intros x Hx; apply HPQ; constructor; exact Hx).
  rewrite !filter_cons. destruct (decide (P a)) as [Pa|]; destruct (decide (Q a)) as [|Qa]; cbn; try lia. exfalso. apply Qa, HPQ; [constructor|exact Pa].
Qed.

Lemma desc_le fa fa' v : acyclic fa -> acyclic fa' -> length fa' = length fa -> (forall i, i < length fa -> reach fa' i v -> reach fa i v) -> desc fa' v <= desc fa v.
Proof.
  intros HA HA' L H. unfold desc. rewrite L. apply filter_len_le. intros i Hi. apply elem_of_seq in Hi. rewrite <- L at 1. rewrite (up_iff fa') by (assumption || lia).
  rewrite (up_iff fa) by (assumption || lia). apply H. lia.
Qed.
Lemma desc_ext fa fa' v : acyclic fa -> acyclic fa' -> length fa' = length fa -> (forall i, i < length fa -> (reach fa' i v <-> reach fa i v)) -> desc fa' v = desc fa v.
Proof. intros HA HA' L H. apply Nat.le_antisymm; apply desc_le; auto; intros i Hi; apply H; lia. Qed.
Lemma desc_minus fa fa' p x : acyclic fa -> acyclic fa' -> length fa' = length fa ->
  (forall i, i < length fa -> (reach fa' i p <-> reach fa i p /\ ~ reach fa i x)) -> (forall i, reach fa i x -> reach fa i p) -> desc fa' p + desc fa x = desc fa p.
Proof.
  intros HA HA' L H1 H2. unfold desc. rewrite L. assert (forall l, (forall i, i ∈ l -> i < length fa) ->
    length (filter (fun i => p ∈ up (S (length fa)) fa' i) l) + length (filter (fun i => x ∈ up (S (length fa)) fa i) l) = length (filter (fun i => p ∈ up (S (length fa)) fa i) l)) as HL.
  { induction l as [|a l IH]; intros Hl; [reflexivity|]. specialize (IH (fun i Hi => Hl i (elem_of_list_further _ _ _ Hi))). assert (a < length fa) as Ha by (apply Hl; constructor).
    rewrite !filter_cons. pose proof (up_iff fa' a p HA' ltac:(lia)) as U1. rewrite L in U1. pose proof (up_iff fa a p HA Ha) as U2. pose proof (up_iff fa a x HA Ha) as U3.
    specialize (H1 a Ha). specialize (H2 a).
    destruct (decide (p ∈ up (S (length fa)) fa' a)); destruct (decide (x ∈ up (S (length fa)) fa a)); destruct (decide (p ∈ up (S (length fa)) fa a)); cbn [length]; try lia; exfalso; tauto. }
  apply HL. intros i Hi. apply elem_of_seq in Hi. lia.
Qed.
Lemma desc_pos fa v : v < length fa -> 1 <= desc fa v.
Proof.
  intros Hv. unfold desc. assert (v ∈ filter (fun i => v ∈ up (S (length fa)) fa i) (seq 0 (length fa))) as H.
  { apply elem_of_list_filter. split; [cbn [up]; constructor|apply elem_of_seq; lia]. }
  destruct (filter _ _); [inversion H|cbn; lia].
Qed.
Lemma desc_max fa v : desc fa v <= length fa.
Proof. unfold desc. etransitivity; [apply filter_length|]. rewrite seq_length. reflexivity. Qed.

(** ** Sums *)
Lemma sum_same {A} (f g : A -> nat) l : (forall x, x ∈ l -> f x = g x) -> sum_list_with f l = sum_list_with g l.
Proof. induction l as [|a l IH]; intros H; [reflexivity|]. cbn. rewrite (H a) by constructor. rewrite IH; [reflexivity|]. intros x Hx. apply H. constructor. exact Hx. Qed.
Lemma sum_update (f g : nat -> nat) p l : NoDup l -> p ∈ l -> (forall v, v ∈ l -> v <> p -> f v = g v) -> sum_list_with f l + g p = sum_list_with g l + f p.
Proof.
  induction 1 as [|a l Ha ND IH]; intros Hp H; [inversion Hp|]. cbn. apply elem_of_cons in Hp as [->|Hp].
  - rewrite (sum_same f g l); [lia|]. intros v Hv. apply H; [constructor; exact Hv|]. intros ->. contradiction.
  - rewrite (H a); [|constructor|intros ->; contradiction]. specialize (IH Hp (fun v Hv => H v (elem_of_list_further _ _ _ Hv))). lia.
Qed.
Lemma sum_two (f g : nat -> nat) a b L l : NoDup l -> (forall v, v ∈ l -> v <> a -> v <> b -> f v <= g v) -> (forall v, v ∈ l -> f v <= L) ->
  sum_list_with f l <= sum_list_with g l + 2 * L.
Proof.
  intros ND H HL.
  assert (sum_list_with f l <= sum_list_with g l + (if bool_decide (a ∈ l) then L else 0) + (if bool_decide (b ∈ l) then L else 0)) as HH; [|repeat case_bool_decide; lia].
  induction ND as [|x l Hx ND IH]; [cbn; lia|]. cbn [sum_list_with]. specialize (IH (fun v Hv => H v (elem_of_list_further _ _ _ Hv)) (fun v Hv => HL v (elem_of_list_further _ _ _ Hv))).
  pose proof (HL x ltac:(constructor)) as HLx. pose proof (H x ltac:(constructor)) as Hfx.
  destruct (decide (x = a)) as [->|Na]; [|destruct (decide (x = b)) as [->|Nb]].
  - rewrite (bool_decide_eq_true_2 (a ∈ a :: l)) by constructor. rewrite (bool_decide_eq_false_2 (a ∈ l)) in IH by exact Hx.
    assert ((if bool_decide (b ∈ l) then L else 0) <= (if bool_decide (b ∈ a :: l) then L else 0)); [|lia].
    destruct (bool_decide_reflect (b ∈ l)); [rewrite bool_decide_eq_true_2 by (constructor; assumption); lia|lia].
  - rewrite (bool_decide_eq_true_2 (b ∈ b :: l)) by constructor. rewrite (bool_decide_eq_false_2 (b ∈ l)) in IH by exact Hx.
    assert ((if bool_decide (a ∈ l) then L else 0) <= (if bool_decide (a ∈ b :: l) then L else 0)); [|lia].
    destruct (bool_decide_reflect (a ∈ l)); [rewrite bool_decide_eq_true_2 by (constructor; assumption); lia|lia].
  - specialize (Hfx Na Nb). rewrite (bool_decide_ext (a ∈ x :: l) (a ∈ l)) by (rewrite elem_of_cons; intuition congruence).
    rewrite (bool_decide_ext (b ∈ x :: l) (b ∈ l)) by (rewrite elem_of_cons; intuition congruence). lia.
Qed.

(** ** The potential: sum of the logarithms of the numbers of descendants *)
Definition pot (fa : list nat) : nat := sum_list_with (fun v => Nat.log2 (desc fa v)) (seq 0 (length fa)).
(** The vertices whose parent is not a representative *)
Definition deepv (fa : list nat) (v : nat) : nat := match fa !! v with Some p => if decide (fa !! p = Some p) then 0 else 1 | None => 0 end.
Definition deep (fa : list nat) : nat := sum_list_with (deepv fa) (seq 0 (length fa)).

Lemma log_split a b : 1 <= a -> 1 <= b -> 1 + Nat.log2 a + Nat.log2 b <= 2 * Nat.log2 (a + b).
Proof.
  intros Ha Hb. assert (forall m, 1 <= m -> 2 * m <= a + b -> Nat.log2 m + 1 <= Nat.log2 (a + b)) as H.
  { intros m Hm Hl. transitivity (Nat.log2 (2 * m)); [rewrite Nat.log2_double by lia; lia|apply Nat.log2_le_mono; exact Hl]. }
  pose proof (Nat.log2_le_mono a (a + b) ltac:(lia)). pose proof (Nat.log2_le_mono b (a + b) ltac:(lia)).
  destruct (Nat.le_gt_cases a b); [pose proof (H a Ha ltac:(lia))|pose proof (H b Hb ltac:(lia))]; lia.
Qed.

Lemma reach_depth fa i v : reach fa i v -> forall d r, rootof fa d i r -> exists d', rootof fa d' v r /\ d' <= d /\ (d' = d -> v = i).
Proof.
  induction 1 as [i Hi|i j v E Hne R IH]; intros d r H; [exists d; auto|]. inversion H as [i' Hi'|d1 i1 j1 r1 Hi1 Hne1 Hr1]; subst; [congruence|].
  assert (j1 = j) as -> by congruence. destruct (IH _ _ Hr1) as (d' & H1 & H2 & H3). exists d'. split; [exact H1|]. split; [lia|lia].
Qed.
Lemma reach_back fa i p d r : fa !! i = Some p -> p <> i -> rootof fa d p r -> ~ reach fa p i.
Proof.
  intros E Hne H R. destruct (reach_depth _ _ _ R _ _ H) as (d' & H1 & H2 & H3).
  assert (rootof fa (S d) i r) as H4 by (econstructor; eassumption). destruct (rootof_det _ _ _ _ H1 _ _ H4). lia.
Qed.

Section compress.
  Context (fa : list nat) (x p r : nat) (Ex : fa !! x = Some p) (Hpx : p <> x) (Ep : fa !! p = Some r) (Hrp : r <> p) (Er : fa !! r = Some r).
  Let fa' := <[x := r]> fa.
  Lemma cp_xr : x <> r. Proof. intros ->. congruence. Qed.
  Lemma cp_xl : x < length fa. Proof. eapply lookup_lt_Some; exact Ex. Qed.
  Lemma cp_x : fa' !! x = Some r. Proof. apply list_lookup_insert, cp_xl. Qed.
  Lemma cp_o v : v <> x -> fa' !! v = fa !! v. Proof. intros H. apply list_lookup_insert_ne. congruence. Qed.
  Lemma cp_top v : reach fa r v -> v = r.
  Proof. intros R. inversion R as [|? j ? E Hne R']; subst; [reflexivity|congruence]. Qed.
  Lemma cp_top' v : reach fa' r v -> v = r.
  Proof. intros R. inversion R as [|? j ? E Hne R']; subst; [reflexivity|]. rewrite cp_o in E by (apply not_eq_sym, cp_xr). congruence. Qed.
  Lemma cp_down i v : reach fa' i v -> reach fa i v.
  Proof.
    induction 1 as [i Hi|i j v E Hne R IH]; [constructor; unfold fa' in Hi; rewrite insert_length in Hi; exact Hi|]. destruct (decide (i = x)) as [->|Hix].
    - rewrite cp_x in E. injection E as <-. econstructor; [exact Ex|exact Hpx|]. econstructor; [exact Ep|exact Hrp|exact IH].
    - rewrite cp_o in E by exact Hix. econstructor; eassumption.
  Qed.
  Lemma cp_up i v : reach fa i v -> v <> p -> reach fa' i v.
  Proof.
    intros R Hv. induction R as [i Hi|i j v E Hne R IH]; [constructor; unfold fa'; rewrite insert_length; exact Hi|]. specialize (IH Hv). destruct (decide (i = x)) as [->|Hix].
    - rewrite Ex in E. injection E as <-. inversion IH as [|? j ? E Hne' R']; subst; [contradiction|]. rewrite cp_o in E by exact Hpx.
      econstructor; [exact cp_x|apply not_eq_sym, cp_xr|]. replace r with j by congruence. exact R'.
    - econstructor; [rewrite cp_o by exact Hix; exact E|exact Hne|exact IH].
  Qed.
  Lemma cp_p i : reach fa' i p <-> reach fa i p /\ ~ reach fa i x.
  Proof.
    split.
    - intros R. split; [apply cp_down; exact R|]. remember p as q eqn:Q in R. revert Q. induction R as [i Hi|i j v E Hne R IH]; intros ->.
      + intros R. inversion R as [|? j ? E Hne R']; subst; [contradiction|]. assert (j = r) as -> by congruence. apply cp_top in R'. apply cp_xr. exact R'.
      + destruct (decide (i = x)) as [->|Hix].
        * rewrite cp_x in E. injection E as <-. apply cp_top' in R. congruence.
        * rewrite cp_o in E by exact Hix. intros R2. inversion R2 as [|? j' ? E' Hne' R']; subst; [contradiction|]. assert (j' = j) as -> by congruence. apply (IH eq_refl). exact R'.
    - intros [R H]. remember p as q eqn:Q in R. revert Q H. induction R as [i Hi|i j v E Hne R IH]; intros -> H; [constructor; unfold fa'; rewrite insert_length; exact Hi|].
      assert (i <> x) as Hix by (intros ->; apply H; constructor; exact cp_xl). econstructor; [rewrite cp_o by exact Hix; exact E|exact Hne|]. apply IH; [reflexivity|]. intros R'.
      apply H. econstructor; eassumption.
  Qed.
  Context (HA : acyclic fa).
  Lemma cp_same : same_roots fa fa'.
  Proof. apply compress; [|exact cp_xr]. exists 2. econstructor; [exact Ex|exact Hpx|]. econstructor; [exact Ep|exact Hrp|]. constructor. exact Er. Qed.
  Lemma cp_len : length fa' = length fa. Proof. apply insert_length. Qed.
  Lemma cp_ac : acyclic fa'. Proof. apply (same_roots_acyclic _ _ cp_same HA). Qed.
  Lemma cp_desc v : v <> p -> desc fa' v = desc fa v.
  Proof. intros Hv. apply desc_ext; [exact HA|exact cp_ac|exact cp_len|]. intros i _. split; [apply cp_down|]. intros R. apply cp_up; assumption. Qed.
  Lemma cp_desc_p : desc fa' p + desc fa x = desc fa p.
  Proof.
    apply desc_minus; [exact HA|exact cp_ac|exact cp_len|intros i _; apply cp_p|]. intros i R. induction R as [i Hi|i j v E Hne R IH]; [|econstructor; eauto].
    econstructor; [exact Ex|exact Hpx|]. constructor. eapply lookup_lt_Some; exact Ep.
  Qed.
  Lemma cp_pot : 1 + pot fa' + Nat.log2 (desc fa x) <= pot fa + Nat.log2 (desc fa p).
  Proof.
    assert (p < length fa) as Hp by (eapply lookup_lt_Some; exact Ep).
    assert (pot fa' + Nat.log2 (desc fa p) = pot fa + Nat.log2 (desc fa' p)) as H.
    { unfold pot. rewrite cp_len. apply (sum_update (fun v => Nat.log2 (desc fa' v)) (fun v => Nat.log2 (desc fa v)) p); [apply NoDup_seq|apply elem_of_seq; lia|].
      intros v _ Hv. cbn beta. rewrite cp_desc by exact Hv. reflexivity. }
    pose proof (log_split (desc fa' p) (desc fa x) ltac:(apply desc_pos; rewrite cp_len; exact Hp) ltac:(apply desc_pos, cp_xl)) as HL. rewrite cp_desc_p in HL. lia.
  Qed.
  Lemma cp_pot_le : pot fa' <= pot fa.
  Proof.
    unfold pot. rewrite cp_len. induction (seq 0 (length fa)) as [|v l IH]; [reflexivity|]. cbn [sum_list_with]. apply Nat.add_le_mono; [|exact IH]. apply Nat.log2_le_mono.
    apply desc_le; [exact HA|exact cp_ac|exact cp_len|]. intros i _. apply cp_down.
  Qed.
  Lemma cp_deep : deep fa = 1 + deep fa'.
  Proof.
    assert (deepv fa x = 1) as D1 by (unfold deepv; rewrite Ex; rewrite decide_False by congruence; reflexivity).
    assert (deepv fa' x = 0) as D2 by (unfold deepv; rewrite cp_x; rewrite decide_True by (rewrite cp_o by (apply not_eq_sym, cp_xr); exact Er); reflexivity).
    assert (deep fa' + deepv fa x = deep fa + deepv fa' x) as H; [|lia].
    unfold deep. rewrite cp_len. apply sum_update; [apply NoDup_seq|apply elem_of_seq; pose proof cp_xl; lia|]. intros v _ Hv. unfold deepv. rewrite cp_o by exact Hv.
    destruct (fa !! v) as [w|]; [|reflexivity]. destruct (decide (w = x)) as [->|Hw].
    - rewrite !decide_False; [reflexivity|congruence|rewrite cp_x; pose proof cp_xr; congruence].
    - rewrite cp_o by exact Hw. reflexivity.
  Qed.
End compress.

(** ** find *)
Lemma find_work fa : acyclic fa -> forall fuel d i r, rootof fa d i r -> d < fuel ->
  exists fa', uf_find_fa fuel fa i = Ok (fa', r) /\ (forall w, uf_find_faW fuel fa i w = Ok ((fa', r), w + S d)) /\ same_roots fa fa' /\
    (forall v, reach fa i v -> fa' !! v = Some r) /\ (forall v, ~ reach fa i v -> fa' !! v = fa !! v) /\
    (forall v, (reach fa i v -> v = i) -> desc fa' v = desc fa v) /\
    S d + pot fa' + Nat.log2 (desc fa i) <= 2 + pot fa + Nat.log2 (length fa) /\ S d + deep fa' <= 2 + deep fa /\ pot fa' <= pot fa.
Proof.
  intros HA. induction fuel as [|fuel IH]; intros d i r H Hd; [lia|]. pose proof (rootof_lt _ _ _ _ H) as [Hi _].
  pose proof (Nat.log2_le_mono _ _ (desc_max fa i)) as HM.
  inversion H as [i' Hi'|d1 p i1 r1 Ei Hpi Hr]; subst; cbn [uf_find_fa uf_find_faW].
  - rewrite (vget_ok _ _ _ Hi'). cbn [mbind res_bind]. exists fa. unfold ebind, tick, elift, eret. cbn [mbind res_bind]. rewrite Nat.eqb_refl.
    split; [reflexivity|]. split; [reflexivity|]. split; [apply same_roots_refl|]. split; [|repeat split; auto; lia].
    intros v R. inversion R as [|? j ? E Hne R']; subst; [exact Hi'|congruence].
  - rename i1 into p. rewrite (vget_ok _ _ _ Ei). unfold ebind, tick, elift, eret. cbn [mbind res_bind]. destruct (Nat.eqb_spec p i); [contradiction|].
    destruct (IH d1 p r Hr ltac:(lia)) as (fa1 & E1 & W1 & S1 & On & Off & Ds & Po & De & Pm). rewrite E1. cbn [mbind res_bind].
    pose proof (reach_back _ _ _ _ _ Ei Hpi Hr) as NB. pose proof (rootof_root _ _ _ _ H) as Er.
    assert (fa1 !! i = Some p) as Ei1 by (rewrite Off by exact NB; exact Ei).
    assert (fa1 !! p = Some r) as Ep1 by (apply On; constructor; apply (rootof_lt _ _ _ _ Hr)).
    assert (length fa1 = length fa) as L1 by apply S1. assert (i <> r) as Hir by (intros ->; congruence).
    assert (root fa1 i r) as Ri by (apply S1; eexists; exact H).
    assert (fa1 !! r = Some r) as Er1 by (destruct Ri as [? Ri]; apply (rootof_root _ _ _ _ Ri)).
    rewrite vset_ok by lia. cbn [mbind res_bind]. rewrite (vget_ok _ i r) by (apply list_lookup_insert; lia). cbn [mbind res_bind].
    exists (<[i := r]> fa1). split; [reflexivity|]. split; [|split; [|split; [|split]]].
    + intros w. rewrite (W1 (w + 1)). cbn [mbind res_bind]. rewrite vset_ok by lia. cbn [mbind res_bind]. rewrite (vget_ok _ i r) by (apply list_lookup_insert; lia). cbn [mbind res_bind].
      f_equal. f_equal. lia.
    + apply (same_roots_trans _ _ _ S1). apply compress; assumption.
    + intros v R. destruct (decide (v = i)) as [->|Hv]; [apply list_lookup_insert; lia|]. rewrite list_lookup_insert_ne by congruence. apply On.
      inversion R as [|? j ? E Hne R']; subst; [congruence|]. assert (j = p) as -> by congruence. exact R'.
    + intros v R. rewrite list_lookup_insert_ne by (intros ->; apply R; constructor; exact Hi). apply Off. intros R'. apply R. econstructor; eassumption.
    + assert (acyclic fa1) as HA1 by (apply (same_roots_acyclic _ _ S1 HA)). destruct (decide (r = p)) as [->|Hrp].
      * rewrite list_insert_id by exact Ei1. assert (fa1 = fa) as ->.
        { apply list_eq. intros v. destruct (decide (v = p)) as [->|Hv]; [congruence|]. apply Off. intros R. inversion R as [|? j ? E Hne R']; subst; [congruence|congruence]. }
        assert (d1 = 0) as -> by (apply (rootof_det _ _ _ _ Hr 0 p); constructor; exact Er).
        split; [reflexivity|]. lia.
      * assert (desc fa1 i = desc fa i) as Di by (apply Ds; intros R; contradiction). assert (desc fa1 p = desc fa p) as Dp by (apply Ds; reflexivity).
        split; [|split; [|split]].
        -- intros v Hv. rewrite (cp_desc fa1 i p r) by (assumption || (intros ->; apply Hpi; apply Hv; econstructor; [exact Ei|exact Hpi|]; constructor; apply (rootof_lt _ _ _ _ Hr))).
           apply Ds. intros R. assert (v = i) as -> by (apply Hv; econstructor; eassumption). contradiction.
        -- pose proof (cp_pot fa1 i p r Ei1 Hpi Ep1 Hrp Er1 HA1) as HP. rewrite Di, Dp in HP. lia.
        -- pose proof (cp_deep fa1 i p r Ei1 Hpi Ep1 Hrp Er1) as HD. lia.
        -- pose proof (cp_pot_le fa1 i p r Ei1 Hpi Ep1 Hrp Er1 HA1). lia.
Qed.

(** ** join *)
Lemma link_pot fa x y fx fy : acyclic fa -> fa !! x = Some fx -> fa !! fx = Some fx -> fa !! y = Some fy -> fa !! fy = Some fy -> fx <> fy ->
  acyclic (<[x := y]> fa) /\ pot (<[x := y]> fa) <= pot fa + 2 * Nat.log2 (length fa).
Proof.
  intros HA Ex Efx Ey Efy Hne.
  assert (forall v f, fa !! v = Some f -> fa !! f = Some f -> root fa v f) as HR.
  { intros v f E1 E2. destruct (decide (f = v)) as [->|Hv]; [exists 0; constructor; exact E1|]. exists 1. econstructor; [exact E1|exact Hv|]. constructor. exact E2. }
  pose proof (link_acyclic fa x y fx fy HA (HR _ _ Ex Efx) (HR _ _ Ey Efy) Hne) as HA'. split; [exact HA'|].
  assert (y <> x) as Hyx by (intros ->; congruence). assert (fy <> x) as Hfx by (intros ->; congruence).
  assert (x < length fa) as Hx by (eapply lookup_lt_Some; exact Ex).
  unfold pot. rewrite insert_length. apply (sum_two _ _ y fy); [apply NoDup_seq| |].
  - intros v Hv Nv1 Nv2. apply Nat.log2_le_mono. apply desc_le; [exact HA|exact HA'|apply insert_length|]. intros i _ R.
    induction R as [i Hi|i j v E Hji R IH]; [constructor; rewrite insert_length in Hi; exact Hi|]. destruct (decide (i = x)) as [->|Hix].
    + exfalso. rewrite list_lookup_insert in E by exact Hx. injection E as <-. inversion R as [|? k ? E Hk R']; subst; [contradiction|].
      rewrite list_lookup_insert_ne in E by congruence. assert (k = fy) as -> by congruence. inversion R' as [|? k ? E2 Hk2 R2]; subst; [contradiction|].
      rewrite list_lookup_insert_ne in E2 by congruence. congruence.
    + rewrite list_lookup_insert_ne in E by congruence. econstructor; [exact E|exact Hji|]. apply IH; assumption.
  - intros v _. apply Nat.log2_le_mono. etransitivity; [apply desc_max|]. rewrite insert_length. reflexivity.
Qed.
Lemma pot_new n : pot (seq 0 n) = 0.
Proof.
  unfold pot. rewrite seq_length. rewrite (sum_same _ (fun _ => 0)); [clear; induction (seq 0 n); cbn; lia|]. intros v Hv. apply elem_of_seq in Hv.
  assert (desc (seq 0 n) v <= 1) as H; [|destruct (desc (seq 0 n) v) as [|[|]]; try reflexivity; lia].
  unfold desc. rewrite seq_length. assert (forall l : list nat, NoDup l -> (forall i, i ∈ l -> i < n) -> length (filter (fun i => v ∈ up (S n) (seq 0 n) i) l) <= length (filter (fun i => i = v) l)) as HL.
  { intros l _ Hl. apply filter_len_le. intros i Hi. specialize (Hl i Hi). cbn [up]. rewrite lookup_seq_lt by exact Hl. cbn [plus]. rewrite Nat.eqb_refl. rewrite elem_of_list_singleton. congruence. }
  etransitivity; [apply HL; [apply NoDup_seq|intros i Hi; apply elem_of_seq in Hi; lia]|].
  assert (NoDup (filter (fun i => i = v) (seq 0 n))) as ND by (apply NoDup_filter, NoDup_seq).
  assert (forall i, i ∈ filter (fun i => i = v) (seq 0 n) -> i = v) as Hall by (intros i Hi; apply elem_of_list_filter in Hi; apply Hi).
  destruct (filter (fun i => i = v) (seq 0 n)) as [|a [|b l]]; cbn; try lia. exfalso. rewrite (Hall a), (Hall b) in ND by (repeat constructor).
  apply NoDup_cons in ND as [ND _]. apply ND. constructor.
Qed.

(** ** The calls of the structure *)
Definition one_more : relation nat := fun w w' => w' = w + 1.
Lemma steps_plus k : forall w w', nsteps one_more k w w' <-> w' = w + k.
Proof.
  induction k as [|k IH]; intros w w'.
  - split; [intros H; inversion H; subst; lia|]. intros ->. rewrite Nat.add_0_r. constructor.
  - split.
    + intros H. inversion H as [|? ? w1 ? H1 H2]; subst. unfold one_more in H1. apply IH in H2. lia.
    + intros ->. econstructor; [reflexivity|]. apply IH. lia.
Qed.
Notation pays := (spends one_more).
Lemma pays_within {A} c m (r : res A) : pays c (fun _ => 0) m r -> within m r c.
Proof. intros H w. specialize (H w). destruct r as [a| |]; [|exact H|exact H]. destruct H as (w' & k & E & N & L). apply steps_plus in N as ->. exists k. split; [exact E|lia]. Qed.

Section calls.
  Context (n : nat).
  Let L := Nat.log2 n.
  Definition upot (u : uf) : nat := pot (uf_fa u).

  Lemma find_calls u i : UInv n u -> i < n -> exists d r u', rootof (uf_fa u) d i r /\ uf_find u i = Ok (u', r) /\ (forall w, uf_findW u i w = Ok ((u', r), w + S d)) /\ UInv n u' /\
    same_roots (uf_fa u) (uf_fa u') /\ (forall v, reach (uf_fa u) i v -> uf_fa u' !! v = Some r) /\ (forall v, ~ reach (uf_fa u) i v -> uf_fa u' !! v = uf_fa u !! v) /\
    uf_sz u' = uf_sz u /\ S d + upot u' <= L + 2 + upot u /\ S d + deep (uf_fa u') <= 2 + deep (uf_fa u) /\ S d <= n /\ upot u' <= upot u.
  Proof.
    intros I Hi. destruct (ui_ac _ _ I i) as [r [d Hd]]; [rewrite (ui_fa _ _ I); exact Hi|]. pose proof (rootof_depth _ _ _ _ Hd) as Hdn.
    destruct (find_work (uf_fa u) (ui_ac _ _ I) (S (length (uf_fa u))) d i r Hd) as (fa' & E & W & Sr & On & Off & _ & Po & De & Pm); [lia|].
    exists d, r, (Uf (uf_n u) fa' (uf_sz u)). unfold uf_find, uf_findW, upot. rewrite E. cbn [mbind res_bind uf_fa uf_sz uf_n].
    split; [exact Hd|]. split; [reflexivity|]. split; [intros w; unfold ebind; rewrite W; reflexivity|].
    rewrite (ui_fa _ _ I) in *. split; [constructor; cbn [uf_n uf_fa uf_sz]|].
    - apply (ui_n _ _ I).
    - destruct Sr as [-> _]. apply (ui_fa _ _ I).
    - apply (ui_sz _ _ I).
    - apply (same_roots_acyclic _ _ Sr), (ui_ac _ _ I).
    - split; [exact Sr|]. split; [exact On|]. split; [exact Off|]. split; [reflexivity|]. unfold L. lia.
  Qed.
  Lemma find_pays u i c : UInv n u -> pays (L + 2 + c + upot u) (fun x => upot x.1 + c) (uf_findW u i) (uf_find u i).
  Proof.
    intros I. destruct (decide (i < n)) as [Hi|Hi].
    - destruct (find_calls u i I Hi) as (d & r & u' & _ & E & W & _ & _ & _ & _ & _ & Po & _). rewrite E. intros w. exists (w + S d), (S d). rewrite W. split; [reflexivity|].
      split; [apply steps_plus; reflexivity|]. cbn [fst]. lia.
    - rewrite (find_panic n) by (assumption || lia). intros w. unfold uf_findW. cbn [uf_find_faW]. unfold ebind, tick, elift. cbn [mbind res_bind].
      rewrite vget_panic by (rewrite (ui_fa _ _ I); lia). reflexivity.
  Qed.
  Lemma find_ok_inv u i u' r : UInv n u -> uf_find u i = Ok (u', r) -> i < n /\ UInv n u' /\ uf_fa u' !! i = Some r /\ uf_fa u' !! r = Some r /\ same_roots (uf_fa u) (uf_fa u').
  Proof.
    intros I E. destruct (decide (i < n)) as [Hi|Hi]; [|rewrite (find_panic n) in E by (assumption || lia); discriminate].
    destruct (find_calls u i I Hi) as (d & r1 & u1 & Rd & E1 & _ & I1 & Sr & On & Off & _). rewrite E1 in E. injection E as <- <-. split; [exact Hi|]. split; [exact I1|].
    split; [apply On; constructor; rewrite (ui_fa _ _ I); exact Hi|]. split; [|exact Sr]. destruct Sr as [_ Sr]. destruct (Sr i r1) as [d' Hd']; [exists d; exact Rd|]. apply (rootof_root _ _ _ _ Hd').
  Qed.
  Lemma same_pays u x y : UInv n u -> pays (2 * L + 4 + upot u) (fun z => upot z.1) (uf_is_sameW u x y) (uf_is_same u x y).
  Proof.
    intros I. apply spends_assert. intros _. apply spends_assert. intros _.
    eapply spends_bind; [eapply spends_weak; [apply (find_pays u x (L + 2) I)|unfold L; lia|intros a _; apply Nat.le_refl]|]. intros [u1 fx] E1. apply find_ok_inv in E1 as (_ & I1 & _); [|exact I].
    eapply spends_bind; [eapply spends_weak; [apply (find_pays u1 y 0 I1)|cbn [fst]; lia|intros a _; apply Nat.le_refl]|]. intros [u2 fy] E2. apply spends_ret. cbn [fst]. lia.
  Qed.
  Lemma size_pays u x : UInv n u -> pays (L + 2 + upot u) (fun z => upot z.1) (uf_sizeW u x) (uf_size u x).
  Proof.
    intros I. apply spends_assert. intros _.
    eapply spends_bind; [eapply spends_weak; [apply (find_pays u x 0 I)|lia|intros a _; apply Nat.le_refl]|]. intros [u1 fx] E1. cbn [fst].
    apply spends_lift_bind. intros s _. apply spends_ret. cbn [fst]. lia.
  Qed.
  Lemma join_pays u x y : UInv n u -> pays (4 * L + 4 + upot u) (fun z => upot z.1) (uf_joinW u x y) (uf_join u x y).
  Proof.
    intros I. apply spends_assert. intros _. apply spends_assert. intros _.
    eapply spends_bind; [eapply spends_weak; [apply (find_pays u x (3 * L + 2) I)|unfold L; lia|intros a _; apply Nat.le_refl]|]. intros [u1 fx] E1. apply find_ok_inv in E1 as (Hx & I1 & Ex & Efx & _); [|exact I].
    cbn [fst].
    eapply spends_bind; [eapply spends_weak; [apply (find_pays u1 y (2 * L) I1)|lia|intros a _; apply Nat.le_refl]|]. intros [u2 fy] E2.
    destruct (find_calls u1 y I1) as (d & r1 & u2' & Rd & E2' & _ & _ & _ & On & Off & _); [apply (find_ok_inv _ _ _ _ I1 E2)|]. rewrite E2' in E2. injection E2 as <- <-.
    pose proof (find_ok_inv _ _ _ _ I1 E2') as (Hy & I2 & Ey & Efy & Sr). rename u2' into u2, r1 into fy. cbn [fst].
    destruct (Nat.eqb_spec fx fy) as [|Hne]; [apply spends_ret; cbn [fst]; lia|].
    apply spends_lift_bind. intros sx _. apply spends_lift_bind. intros sy _. destruct (if (sy <? sx)%Z then (fy, fx) else (fx, fy)).
    apply spends_lift_bind. intros fa Efa. apply spends_lift_bind. intros s _. apply spends_lift_bind. intros sz _. apply spends_ret. cbn [fst]. unfold upot. cbn [uf_fa].
    assert (fa = <[x := y]> (uf_fa u2)) as -> by (rewrite vset_ok in Efa by (rewrite (ui_fa _ _ I2); exact Hx); congruence).
    assert (uf_fa u2 !! fx = Some fx) as Efx2.
    { destruct Sr as [_ Sr]. destruct (Sr fx fx) as [d' Hd']; [exists 0; constructor; exact Efx|]. apply (rootof_root _ _ _ _ Hd'). }
    assert (uf_fa u2 !! x = Some fx) as Ex2.
    { rewrite Off; [exact Ex|]. intros R. apply Hne. destruct (reach_depth _ _ _ R _ _ Rd) as (d' & H1 & _ & _).
      assert (root (uf_fa u1) x fx) as H2. { destruct (decide (fx = x)) as [->|Hfx]; [exists 0; constructor; exact Ex|]. exists 1. econstructor; [exact Ex|exact Hfx|]. constructor. exact Efx. }
      destruct H2 as [d2 H2]. apply (rootof_det _ _ _ _ H2 _ _ H1). }
    destruct (link_pot (uf_fa u2) x y fx fy (ui_ac _ _ I2) Ex2 Efx2 Ey Efy Hne) as [_ HP]. rewrite (ui_fa _ _ I2) in HP. fold L in HP. lia.
  Qed.
  (** groups: every vertex is read at most three times, and the potential does not grow. *)
  Lemma groups_pays u c : UInv n u -> pays (2 * n + deep (uf_fa u) + c) (fun _ => c) (uf_groupsW u) (uf_groups u) /\ forall x, uf_groups u = Ok x -> upot x.1 <= upot u.
  Proof.
    intros I. unfold uf_groupsW, uf_groups, uf_groups_loopW, uf_groups_loop. rewrite (ui_n _ _ I). unfold range. rewrite Nat.sub_0_r.
    match goal with |- context [efor _ ?b _] => set (bodyW := b) end. match goal with |- context [rfor _ ?b _] => set (body := b) end.
    assert (forall i u res, UInv n u -> i < n -> pays (2 + deep (uf_fa u) + c) (fun x => deep (uf_fa x.1) + c) (bodyW i (u, res)) (body i (u, res)) /\
      forall x, body i (u, res) = Ok x -> UInv n x.1 /\ upot x.1 <= upot u) as HB.
    { clear u I. intros i u res I Hi. destruct (find_calls u i I Hi) as (d & r & u' & _ & E & W & I' & _ & _ & _ & _ & _ & De & _ & Pm). unfold bodyW, body. split.
      - apply (spends_bind _ _ (fun x => deep (uf_fa x.1) + c)).
        + rewrite E. intros w. exists (w + S d), (S d). rewrite W. split; [reflexivity|]. split; [apply steps_plus; reflexivity|]. cbn [fst]. lia.
        + intros [u1 r1] _. apply spends_lift_bind. intros g _. apply spends_lift_bind. intros res' _. apply spends_ret. cbn [fst]. lia.
      - intros x Ex. rewrite E in Ex. cbn [mbind res_bind] in Ex. apply rbind_ok_inv in Ex as (g & _ & Ex). apply rbind_ok_inv in Ex as (res' & _ & Ex). injection Ex as <-. cbn [fst]. auto. }
    assert (forall l u res, UInv n u -> Forall (fun i => i < n) l -> pays (2 * length l + deep (uf_fa u) + c) (fun x => deep (uf_fa x.1) + c) (efor l bodyW (u, res)) (rfor l body (u, res)) /\
      forall x, rfor l body (u, res) = Ok x -> upot x.1 <= upot u) as HL.
    { clear u I. induction l as [|i l IH]; intros u res I Hl; cbn [efor rfor].
      - split; [apply spends_ret; cbn [fst length]; lia|]. intros x [= <-]. reflexivity.
      - apply Forall_cons in Hl as [Hi Hl]. destruct (HB i u res I Hi) as [B1 B2]. split.
        + eapply (spends_bind _ _ (fun x => 2 * length l + deep (uf_fa x.1) + c)).
          * intros w. specialize (B1 w). destruct (body i (u, res)) as [a| |]; [|exact B1|exact B1]. destruct B1 as (w' & k & E1 & N & Lk). exists w', k. split; [exact E1|]. split; [exact N|]. cbn [length]. lia.
          * intros [u1 res1] E1. destruct (B2 _ E1) as [I1 _]. apply IH; assumption.
        + intros x E. apply rbind_ok_inv in E as ([u1 res1] & E1 & E). destruct (B2 _ E1) as [I1 P1]. destruct (IH u1 res1 I1 Hl) as [_ P2]. specialize (P2 x E). cbn [fst] in P1. lia. }
    destruct (HL (seq 0 n) u (replicate n []) I) as [P1 P2]; [apply Forall_forall; intros i Hi; apply elem_of_seq in Hi; lia|]. rewrite seq_length in P1. split.
    - eapply spends_bind; [exact P1|]. intros [u1 res1] _. apply spends_ret. lia.
    - intros x E. apply rbind_ok_inv in E as ([u1 res1] & E1 & E). injection E as <-. apply (P2 _ E1).
  Qed.
  Lemma deep_max fa : deep fa <= length fa.
  Proof.
    unfold deep. rewrite <- (seq_length (length fa) 0) at 2. induction (seq 0 (length fa)) as [|v l IH]; [reflexivity|]. cbn [sum_list_with length].
    assert (deepv fa v <= 1); [|lia]. unfold deepv. destruct (fa !! v); [case_decide|]; lia.
  Qed.
  Lemma step_pays u o : UInv n u -> pays (uf_allowance n o + upot u) (fun x => upot x.1) (uf_stepW u o) (uf_step u o).
  Proof.
    intros I. destruct o as [i|x y|x y|x|]; cbn [uf_stepW uf_step uf_allowance]; fold L.
    - eapply spends_bind; [eapply spends_weak; [apply (find_pays u i 0 I)|lia|intros a _; apply Nat.le_refl]|]. intros [u1 r] _. apply spends_ret. cbn [fst]. lia.
    - eapply spends_bind; [apply (same_pays u x y I)|]. intros [u1 r] _. apply spends_ret. cbn [fst]. lia.
    - eapply spends_bind; [apply (join_pays u x y I)|]. intros [u1 r] _. apply spends_ret. cbn [fst]. lia.
    - eapply spends_bind; [apply (size_pays u x I)|]. intros [u1 r] _. apply spends_ret. cbn [fst]. lia.
    - destruct (groups_pays u (upot u) I) as [P1 P2]. pose proof (deep_max (uf_fa u)) as D. rewrite (ui_fa _ _ I) in D.
      eapply spends_bind; [eapply spends_weak; [exact P1|lia|intros a _; apply Nat.le_refl]|]. intros [u1 g] E. specialize (P2 _ E). apply spends_ret. cbn [fst] in *. lia.
  Qed.
  Lemma run_pays ops : forall u, UInv n u -> pays (sum_list_with (uf_allowance n) ops + upot u) (fun x => upot x.1) (erun uf_stepW u ops) (run uf_step u ops).
  Proof.
    induction ops as [|o ops IH]; intros u I; cbn [erun run sum_list_with]; [apply spends_ret; cbn [fst]; lia|].
    eapply (spends_bind _ _ (fun x => sum_list_with (uf_allowance n) ops + upot x.1)).
    - intros w. pose proof (step_pays u o I w) as H. destruct (uf_step u o) as [[u1 out]| |]; [|exact H|exact H]. destruct H as (w' & k & E & N & Lk). exists w', k. split; [exact E|]. split; [exact N|]. cbn [fst] in *. lia.
    - intros [u1 out] E. cbn [fst]. eapply spends_bind; [apply IH; eapply step_inv; eassumption|]. intros [u2 outs] _. apply spends_ret. cbn [fst]. lia.
  Qed.
  Lemma total ops : within (erun uf_stepW (uf_new n) ops) (run uf_step (uf_new n) ops) (sum_list_with (uf_allowance n) ops).
  Proof.
    apply pays_within. eapply spends_weak; [apply run_pays, new_inv| |intros; apply Nat.le_0_l]. unfold upot, uf_new. cbn [uf_fa]. rewrite pot_new. lia.
  Qed.
End calls.
