(** Correctness of the lazy segment tree: the pending maps on the way from a leaf to the root, applied to
    the leaf, always give the plain array. *)
From Verif Require Import Prelude UtilModel UtilProof ArraySpec SegtreeModel SegtreeProof LazySpec LazyModel.

Section Proof.
  Context {S F : Type} (e : S) (op : S -> S -> S) (idm : F) (mapping : F -> S -> S) (comp : F -> F -> F).
  Context (L : monoid_laws e op) (ML : map_laws op idm mapping comp).
  Context (log : nat).
  Local Notation size := (2 ^ log).
  Local Notation tree := (tree S F).
  Implicit Types (s : tree) (A : nat -> S) (h k j x p : nat).

  Local Notation all_apply := (lt_all_apply mapping comp size).
  Local Notation push := (lt_push idm mapping comp size).
  Local Notation update := (lt_update op).

  (** ** Arithmetic of nodes *)
  Definition node h k : Prop := h <= log /\ size <= k * 2 ^ h /\ k * 2 ^ h < 2 * size.
  Definition leaf p : Prop := size <= p < 2 * size.

  Lemma size_split h : h <= log -> size = 2 ^ (log - h) * 2 ^ h.
  Proof. intros H. rewrite <- Nat.pow_add_r. f_equal. lia. Qed.

  Lemma node_range h k : node h k <-> h <= log /\ 2 ^ (log - h) <= k < 2 * 2 ^ (log - h).
  Proof.
    unfold node. pose proof (pow2_pos h) as Hp. split.
    - intros (H1 & H2 & H3). split; [exact H1|]. rewrite (size_split h H1) in H2, H3.
      split; apply Nat.nlt_ge + apply Nat.nle_gt; intros E; nia.
    - intros (H1 & H2 & H3). split; [exact H1|]. rewrite (size_split h H1). split; nia.
  Qed.

  Lemma node_hi h k : node h k -> (k + 1) * 2 ^ h <= 2 * size.
  Proof. intros H. pose proof H as (H1 & _). apply node_range in H as (_ & H2). rewrite (size_split h H1). nia. Qed.

  Lemma node_lt h k : node h k -> 1 <= k < 2 * size.
  Proof. intros (H1 & H2 & H3). pose proof (pow2_pos h). pose proof (pow2_pos log). nia. Qed.

  Lemma node_inner h k : node h k -> 0 < h <-> k < size.
  Proof.
    intros H. destruct h as [|h].
    - destruct H as (_ & H & _). rewrite Nat.pow_0_r, Nat.mul_1_r in H. lia.
    - destruct H as (_ & _ & H). rewrite Nat.pow_succ_r' in H. pose proof (pow2_pos h). nia.
  Qed.

  Lemma node_uniq h h' k : node h k -> node h' k -> h = h'.
  Proof.
    enough (forall h h' k, h < h' -> node h k -> node h' k -> False) as X.
    { intros H1 H2. destruct (lt_eq_lt_dec h h') as [[?|?]|?]; [exfalso|assumption|exfalso]; eauto. }
    clear h h' k. intros h h' k Hlt (_ & H1 & _) (_ & _ & H2).
    assert (2 * 2 ^ h <= 2 ^ h'); [|nia].
    rewrite <- Nat.pow_succ_r'. apply Nat.pow_le_mono_r; lia.
  Qed.

  Lemma leaf_node h p : leaf p -> h <= log -> node h (p / 2 ^ h).
  Proof.
    intros [H1 H2] Hh. apply node_range. split; [exact Hh|]. pose proof (pow2_pos h).
    rewrite (size_split h Hh) in H1, H2. split.
    - apply Nat.div_le_lower_bound; lia.
    - apply Nat.div_lt_upper_bound; lia.
  Qed.

  Lemma leaf_node0 p : leaf p -> node 0 p.
  Proof. intros [H1 H2]. split; [lia|]. rewrite Nat.pow_0_r, Nat.mul_1_r. lia. Qed.

  Lemma under h k p : p / 2 ^ h = k <-> k * 2 ^ h <= p < (k + 1) * 2 ^ h.
  Proof.
    pose proof (pow2_pos h). split.
    - intros <-. pose proof (Nat.div_mod p (2 ^ h)). pose proof (Nat.mod_upper_bound p (2 ^ h)). nia.
    - intros [H1 H2]. symmetry. apply (Nat.div_unique _ _ _ (p - k * 2 ^ h)); nia.
  Qed.

  Lemma node_leaf h k p : node h k -> p / 2 ^ h = k -> leaf p.
  Proof. intros H E. apply under in E. pose proof (node_hi h k H). destruct H. unfold leaf. lia. Qed.

  Lemma div_up h j p : h <= j -> p / 2 ^ j = (p / 2 ^ h) / 2 ^ (j - h).
  Proof.
    intros H. pose proof (pow2_pos h). pose proof (pow2_pos (j - h)).
    rewrite Nat.div_div by lia. f_equal. rewrite <- Nat.pow_add_r. f_equal. lia.
  Qed.

  Lemma node_up h k j : node h k -> h <= j <= log -> node j (k / 2 ^ (j - h)).
  Proof.
    intros H Hj. pose proof (pow2_pos h).
    assert (E : (k * 2 ^ h) / 2 ^ h = k) by (apply Nat.div_mul; lia).
    rewrite <- E, <- div_up by lia. apply leaf_node; [|lia].
    apply (node_leaf h k); assumption.
  Qed.

  Lemma node_left h k : node (Datatypes.S h) k -> node h (2 * k).
  Proof. intros (H1 & H2 & H3). rewrite Nat.pow_succ_r' in *. split; [lia|]. split; nia. Qed.
  Lemma node_right h k : node (Datatypes.S h) k -> node h (2 * k + 1).
  Proof.
    intros H. pose proof (node_hi _ _ H) as Hh. destruct H as (H1 & H2 & H3). rewrite Nat.pow_succ_r' in *.
    pose proof (pow2_pos h). split; [lia|]. split; nia.
  Qed.

  Lemma under_child h k p : p / 2 ^ Datatypes.S h = k <-> p / 2 ^ h = 2 * k \/ p / 2 ^ h = 2 * k + 1.
  Proof.
    rewrite !under, Nat.pow_succ_r'. replace (2 * k + 1 + 1) with (2 * k + 2) by lia. split; [|nia].
    intros H. destruct (le_lt_dec ((2 * k + 1) * 2 ^ h) p); [right|left]; nia.
  Qed.

  (** ancestors of k contain the range of k's parent *)
  Lemma anc_range h k j : h < j -> let x := k / 2 ^ (j - h) in
    x * 2 ^ j <= (k / 2) * (2 * 2 ^ h) /\ (k / 2 + 1) * (2 * 2 ^ h) <= (x + 1) * 2 ^ j.
  Proof.
    intros Hj x.
    assert (Ex : x = (k / 2) / 2 ^ (j - h - 1)).
    { unfold x. rewrite (div_up 1 (j - h)) by lia. reflexivity. }
    destruct (proj1 (under (j - h - 1) x (k / 2)) (eq_sym Ex)) as [U1 U2].
    rewrite <- Nat.pow_succ_r'.
    replace (2 ^ j) with (2 ^ (j - h - 1) * 2 ^ Datatypes.S h) by (rewrite <- Nat.pow_add_r; f_equal; lia).
    pose proof (pow2_pos (Datatypes.S h)). split; [nia|].
    rewrite Nat.mul_assoc. apply Nat.mul_le_mono_r. lia.
  Qed.

  (** ** Products of functions on ranges *)
  Definition Pr A l r : S := mprod e op (map A (seq l (r - l))).

  Lemma Pr_nil A l r : r <= l -> Pr A l r = e.
  Proof. intros H. unfold Pr. replace (r - l) with 0 by lia. reflexivity. Qed.
  Lemma Pr_app A l m r : l <= m <= r -> Pr A l r = op (Pr A l m) (Pr A m r).
  Proof.
    intros H. unfold Pr. replace (r - l) with ((m - l) + (r - m)) by lia.
    rewrite seq_app, map_app, (mprod_app _ _ L). repeat f_equal; lia.
  Qed.
  Lemma Pr_one A l : Pr A l (l + 1) = A l.
  Proof. unfold Pr. replace (l + 1 - l) with 1 by lia. cbn. apply (ml_idr _ _ L). Qed.
  Lemma Pr_ext A A' l r : (forall p, l <= p < r -> A p = A' p) -> Pr A l r = Pr A' l r.
  Proof.
    intros H. unfold Pr. f_equal. apply map_ext_in. intros p Hp. apply in_seq in Hp. apply H. lia.
  Qed.
  Lemma Pr_map A f l r : l < r -> mapping f (Pr A l r) = Pr (fun p => mapping f (A p)) l r.
  Proof.
    intros H. remember (r - l) as m eqn:Hm. revert l r H Hm. induction m as [|m IH]; intros l r H Hm; [lia|].
    destruct (decide (m = 0)) as [->|Hm0].
    - replace r with (l + 1) by lia. rewrite !Pr_one. reflexivity.
    - rewrite (Pr_app _ l (l + 1) r), (Pr_app (fun p => mapping f (A p)) l (l + 1) r) by lia.
      rewrite (mpl_op _ _ _ _ ML), !Pr_one. f_equal. apply IH; lia.
  Qed.

  (** ** Effective values *)
  Definition D s k : S := default e (s.1 !! k).
  Definition Lz s k : F := default idm (s.2 !! k).

  Fixpoint val s h p : S :=
    match h with
    | O => D s p
    | Datatypes.S h' => mapping (Lz s (p / 2 ^ h)) (val s h' p)
    end.

  Definition same s s' k : Prop := forall v, mapping (Lz s' k) v = mapping (Lz s k) v.
  Definition idl s k : Prop := forall v, mapping (Lz s k) v = v.

  Lemma val_step s s' h h' p : h <= h' -> val s' h p = val s h p ->
    (forall j, h < j <= h' -> same s s' (p / 2 ^ j)) -> val s' h' p = val s h' p.
  Proof.
    intros Hh H. induction Hh as [|h' Hh IH]; intros Hj; [exact H|].
    cbn [val]. rewrite IH by (intros j Hj'; apply Hj; lia). apply Hj. lia.
  Qed.
  Lemma val_ext s s' h p : D s' p = D s p -> (forall j, 0 < j <= h -> same s s' (p / 2 ^ j)) ->
    val s' h p = val s h p.
  Proof. intros H0 H. apply (val_step s s' 0); [lia|exact H0|exact H]. Qed.
  Lemma val_clean s h h' p : h <= h' -> (forall j, h < j <= h' -> idl s (p / 2 ^ j)) -> val s h' p = val s h p.
  Proof.
    intros Hh. induction Hh as [|h' Hh IH]; intros Hj; [reflexivity|].
    cbn [val]. rewrite IH by (intros j Hj'; apply Hj; lia). apply Hj. lia.
  Qed.

  (** ** The invariant: leaves evaluate to A; nodes in G hold the product of their leaves as seen from the
      node; the pending maps of nodes in C do nothing. *)
  Record R s A (G C : nat -> nat -> Prop) : Prop := {
    R_d : length s.1 = 2 * size;
    R_lz : length s.2 = size;
    R_val : forall p, leaf p -> val s log p = A p;
    R_good : forall h k, node h k -> G h k -> D s k = Pr (val s h) (k * 2 ^ h) ((k + 1) * 2 ^ h);
    R_clean : forall h k, 0 < h -> node h k -> C h k -> idl s k }.

  Definition all (_ _ : nat) : Prop := True.
  Definition anc h k j x : Prop := h < j /\ x = k / 2 ^ (j - h).

  Lemma R_mono s A A' (G G' C C' : nat -> nat -> Prop) :
    R s A G C -> (forall p, leaf p -> A' p = A p) -> (forall h k, node h k -> G' h k -> G h k) ->
    (forall h k, 0 < h -> node h k -> C' h k -> C h k) -> R s A' G' C'.
  Proof.
    intros [H1 H2 H3 H4 H5] HA HG HC. split; auto.
    - intros p Hp. rewrite HA by exact Hp. apply H3. exact Hp.
    - intros h k Hh Hk Hc. apply (H5 h); auto.
  Qed.

  Lemma D_get s A G C k : R s A G C -> k < 2 * size -> vget s.1 k = Ok (D s k).
  Proof.
    intros HR Hk. destruct (vget_lt s.1 k) as (x & E & Ex); [rewrite (R_d _ _ _ _ HR); exact Hk|].
    rewrite E. unfold D. rewrite Ex. reflexivity.
  Qed.
  Lemma Lz_get s A G C k : R s A G C -> k < size -> vget s.2 k = Ok (Lz s k).
  Proof.
    intros HR Hk. destruct (vget_lt s.2 k) as (x & E & Ex); [rewrite (R_lz _ _ _ _ HR); exact Hk|].
    rewrite E. unfold Lz. rewrite Ex. reflexivity.
  Qed.

  Lemma default_insert {T} (dflt : T) (l : list T) i (x : T) j : i < length l ->
    default dflt (<[i := x]> l !! j) = if decide (j = i) then x else default dflt (l !! j).
  Proof.
    intros Hi. destruct (decide (j = i)) as [->|Hne].
    - rewrite list_lookup_insert by exact Hi. reflexivity.
    - rewrite list_lookup_insert_ne by congruence. reflexivity.
  Qed.

  (** ** all_apply *)
  Lemma all_apply_fun s k f : length s.1 = 2 * size -> length s.2 = size -> k < 2 * size ->
    exists s', all_apply s k f = Ok s' /\ length s'.1 = 2 * size /\ length s'.2 = size /\
      (forall x, D s' x = if decide (x = k) then mapping f (D s k) else D s x) /\
      (forall x, Lz s' x = if decide (x = k /\ k < size) then comp f (Lz s k) else Lz s x).
  Proof.
    destruct s as [d lz]. cbn. intros H1 H2 Hk. unfold lt_all_apply.
    destruct (vget_lt d k) as (v & -> & Ev); [lia|]. cbn [mbind res_bind].
    rewrite vset_ok by lia. cbn [mbind res_bind].
    destruct (Nat.ltb_spec k size) as [Hs|Hs].
    - destruct (vget_lt lz k) as (g & -> & Eg); [lia|]. cbn [mbind res_bind].
      rewrite vset_ok by lia. cbn [mbind res_bind]. eexists. split; [reflexivity|]. cbn.
      rewrite !insert_length. split; [exact H1|]. split; [exact H2|]. unfold D, Lz. cbn. split.
      + intros x. rewrite default_insert by lia. rewrite Ev. reflexivity.
      + intros x. rewrite default_insert by lia. rewrite Eg.
        destruct (decide (x = k)), (decide (x = k /\ k < size)); try reflexivity; exfalso; tauto.
    - eexists. split; [reflexivity|]. cbn. rewrite !insert_length. split; [exact H1|]. split; [exact H2|].
      unfold D, Lz. cbn. split.
      + intros x. rewrite default_insert by lia. rewrite Ev. reflexivity.
      + intros x. destruct (decide (x = k /\ k < size)); [lia|reflexivity].
  Qed.

  Lemma R_all_apply s A G C h k f : R s A G C -> node h k ->
    (forall j x, node j x -> anc h k j x -> C j x) ->
    exists s', all_apply s k f = Ok s' /\
      R s' (fun p => if decide (p / 2 ^ h = k) then mapping f (A p) else A p)
           (fun j x => G j x /\ ~ anc h k j x) (fun j x => C j x /\ x <> k).
  Proof.
    intros HR Hk Hanc. pose proof (node_lt h k Hk) as Hkl.
    destruct (all_apply_fun s k f (R_d _ _ _ _ HR) (R_lz _ _ _ _ HR)) as (s' & E & L1 & L2 & HD & HL); [lia|].
    exists s'. split; [exact E|].
    assert (Hsame : forall x, x <> k -> same s s' x).
    { intros x Hx v. rewrite HL. destruct (decide _); [exfalso; tauto|reflexivity]. }
    assert (Hdiff : forall p j, leaf p -> j <= log -> j <> h -> p / 2 ^ j <> k).
    { intros p j Hp Hj Hjh E'. apply Hjh. apply (node_uniq j h k); [rewrite <- E'; apply leaf_node; assumption|exact Hk]. }
    assert (Hout : forall p j, leaf p -> p / 2 ^ h <> k -> j <= log -> val s' j p = val s j p).
    { intros p j Hp Hu Hj. apply val_ext.
      - rewrite HD. destruct (decide (p = k)) as [->|]; [|reflexivity]. exfalso.
        assert (h = 0) as -> by (apply (node_uniq h 0 k); [exact Hk|apply leaf_node0; exact Hp]).
        rewrite Nat.pow_0_r, Nat.div_1_r in Hu. congruence.
      - intros i Hi. apply Hsame. intros E'. destruct (decide (i = h)) as [->|Hih]; [congruence|].
        apply (Hdiff p i Hp ltac:(lia) Hih). exact E'. }
    assert (Hbelow : forall p j, leaf p -> j < h -> val s' j p = val s j p).
    { intros p j Hp Hj. assert (h <= log) by apply Hk. apply val_ext.
      - rewrite HD. destruct (decide (p = k)) as [->|]; [|reflexivity]. exfalso.
        assert (h = 0) as -> by (apply (node_uniq h 0 k); [exact Hk|apply leaf_node0; exact Hp]). lia.
      - intros i Hi. apply Hsame. apply Hdiff; [exact Hp|lia|lia]. }
    assert (Hat : forall p, p / 2 ^ h = k -> val s' h p = mapping f (val s h p)).
    { intros p Hu. pose proof (node_leaf h k p Hk Hu) as Hp.
      destruct h as [|h]; cbn [val].
      - rewrite Nat.pow_0_r, Nat.div_1_r in Hu. subst p. rewrite HD, decide_True by reflexivity. reflexivity.
      - rewrite Hu. rewrite HL, decide_True.
        + rewrite (mpl_comp _ _ _ _ ML). rewrite Hbelow by (exact Hp || lia). reflexivity.
        + split; [reflexivity|]. apply (node_inner _ _ Hk). lia. }
    split.
    - exact L1.
    - exact L2.
    - intros p Hp. destruct (decide (p / 2 ^ h = k)) as [Hu|Hu].
      + rewrite <- (R_val _ _ _ _ HR p Hp). assert (h <= log) as Hhl by apply Hk.
        assert (Hcl : forall j, h < j <= log -> idl s (p / 2 ^ j)).
        { intros j Hj. apply (R_clean _ _ _ _ HR j); [lia|apply leaf_node; [exact Hp|lia]|].
          apply Hanc; [apply leaf_node; [exact Hp|lia]|]. split; [lia|]. rewrite <- Hu. apply div_up. lia. }
        rewrite (val_clean s h log) by assumption. rewrite (val_clean s' h log).
        * apply Hat. exact Hu.
        * exact Hhl.
        * intros j Hj v. rewrite Hsame by (apply Hdiff; [exact Hp|lia|lia]). apply Hcl. exact Hj.
      + rewrite Hout by (assumption || lia). apply (R_val _ _ _ _ HR). exact Hp.
    - intros j x Hx [HG Hna]. pose proof (R_good _ _ _ _ HR j x Hx HG) as Hg.
      assert (Hjl : j <= log) by apply Hx. pose proof (pow2_pos j) as Hpj.
      destruct (decide (x = k)) as [->|Hxk].
      + assert (j = h) as -> by (eapply node_uniq; eassumption).
        rewrite HD, decide_True by reflexivity. rewrite Hg, Pr_map by nia.
        apply Pr_ext. intros p Hp. symmetry. apply Hat. apply under. exact Hp.
      + rewrite HD, decide_False by exact Hxk. rewrite Hg. apply Pr_ext. intros p Hp. symmetry.
        apply under in Hp. pose proof (node_leaf j x p Hx Hp) as Hpl.
        destruct (decide (j < h)); [apply Hbelow; assumption|].
        apply Hout; [exact Hpl| |exact Hjl]. intros Hu.
        destruct (decide (j = h)) as [->|]; [congruence|].
        apply Hna. split; [lia|]. rewrite <- Hu, <- div_up by lia. congruence.
    - intros j x Hj Hx [HC Hxk] v. rewrite Hsame by exact Hxk. apply (R_clean _ _ _ _ HR j); assumption.
  Qed.

  (** ** push *)
  Lemma push_fun s k : length s.1 = 2 * size -> length s.2 = size -> 0 < k < size ->
    exists s', push s k = Ok s' /\ length s'.1 = 2 * size /\ length s'.2 = size /\
      (forall x, D s' x = if decide (x = 2 * k \/ x = 2 * k + 1) then mapping (Lz s k) (D s x) else D s x) /\
      (forall x, Lz s' x = if decide (x = k) then idm
                           else if decide ((x = 2 * k \/ x = 2 * k + 1) /\ x < size) then comp (Lz s k) (Lz s x)
                           else Lz s x).
  Proof.
    intros H1 H2 Hk. unfold lt_push.
    destruct (vget_lt s.2 k) as (f & -> & Ef); [lia|]. cbn [mbind res_bind].
    assert (Lz s k = f) as El by (unfold Lz; rewrite Ef; reflexivity).
    destruct (all_apply_fun s (2 * k) f H1 H2) as (s1 & -> & L1 & L2 & HD1 & HL1); [lia|]. cbn [mbind res_bind].
    assert (Lz s1 k = f) as El1 by (rewrite HL1, decide_False by lia; exact El).
    destruct (vget_lt s1.2 k) as (f1 & -> & Ef1); [lia|]. cbn [mbind res_bind].
    assert (f1 = f) as -> by (rewrite <- El1; unfold Lz; rewrite Ef1; reflexivity).
    destruct (all_apply_fun s1 (2 * k + 1) f L1 L2) as (s2 & -> & L3 & L4 & HD2 & HL2); [lia|]. cbn [mbind res_bind].
    rewrite vset_ok by lia. cbn [mbind res_bind]. eexists. split; [reflexivity|]. cbn.
    rewrite insert_length. split; [exact L3|]. split; [exact L4|]. split.
    - intros x. change (D s2 x = if decide (x = 2 * k \/ x = 2 * k + 1) then mapping (Lz s k) (D s x) else D s x).
      rewrite HD2, !HD1, El. repeat (destruct (decide _)); subst; try reflexivity; exfalso; lia.
    - intros x. unfold Lz at 1. cbn. rewrite default_insert by lia. fold (Lz s2 x). rewrite El.
      destruct (decide (x = k)); [reflexivity|]. rewrite HL2, !HL1.
      repeat (destruct (decide _)); try (exfalso; lia); destruct_and?; subst; reflexivity.
  Qed.

  Lemma R_push s A C h k : R s A all C -> node (Datatypes.S h) k ->
    exists s', push s k = Ok s' /\
      R s' A all (fun j x => (j = Datatypes.S h /\ x = k) \/ (C j x /\ x <> 2 * k /\ x <> 2 * k + 1)).
  Proof.
    intros HR Hk. pose proof (node_lt _ _ Hk) as Hkl.
    assert (k < size) as Hks by (apply (node_inner _ _ Hk); lia).
    pose proof (node_left _ _ Hk) as Hkl2. pose proof (node_right _ _ Hk) as Hkr2.
    destruct (push_fun s k (R_d _ _ _ _ HR) (R_lz _ _ _ _ HR)) as (s' & E & L1 & L2 & HD & HL); [lia|].
    exists s'. split; [exact E|].
    assert (Hhl : Datatypes.S h <= log) by apply Hk.
    assert (Hsame : forall x, x <> k -> x <> 2 * k -> x <> 2 * k + 1 -> same s s' x).
    { intros x ? ? ? v. rewrite HL, decide_False, decide_False by lia. reflexivity. }
    assert (Hne : forall p j, leaf p -> j <= log -> j <> h -> j <> Datatypes.S h -> same s s' (p / 2 ^ j)).
    { intros p j Hp Hj J1 J2. pose proof (leaf_node j p Hp Hj) as Hn. apply Hsame; intros E'; rewrite E' in Hn.
      - apply J2. apply (node_uniq _ _ k); assumption.
      - apply J1. apply (node_uniq _ _ (2 * k)); assumption.
      - apply J1. apply (node_uniq _ _ (2 * k + 1)); assumption. }
    assert (HDl : forall p, leaf p -> (0 < h \/ p / 2 ^ Datatypes.S h <> k) -> D s' p = D s p).
    { intros p Hp Hor. rewrite HD. destruct (decide _) as [Hc|]; [|reflexivity]. exfalso.
      assert (h = 0) as ->.
      { destruct Hc as [->| ->]; (eapply node_uniq; [|apply leaf_node0; exact Hp]); assumption. }
      destruct Hor as [|Hu]; [lia|]. apply Hu. apply under_child. rewrite Nat.pow_0_r, Nat.div_1_r. exact Hc. }
    assert (Hout : forall p j, leaf p -> p / 2 ^ Datatypes.S h <> k -> j <= log -> val s' j p = val s j p).
    { intros p j Hp Hu Hj. apply val_ext; [apply HDl; auto|]. intros i Hi.
      destruct (decide (i = Datatypes.S h)) as [->|].
      { apply Hsame; [exact Hu| |]; intros E'; pose proof (leaf_node (Datatypes.S h) p Hp Hhl) as Hn; rewrite E' in Hn.
        - pose proof (node_uniq _ _ _ Hn Hkl2). lia.
        - pose proof (node_uniq _ _ _ Hn Hkr2). lia. }
      destruct (decide (i = h)) as [->|].
      { apply Hsame.
        - intros E'. pose proof (leaf_node h p Hp ltac:(lia)) as Hn. rewrite E' in Hn.
          pose proof (node_uniq _ _ _ Hn Hk). lia.
        - intros E'. apply Hu, under_child. auto.
        - intros E'. apply Hu, under_child. auto. }
      apply Hne; [exact Hp|lia|assumption|assumption]. }
    assert (Hbelow : forall p j, leaf p -> j < h -> val s' j p = val s j p).
    { intros p j Hp Hj. apply val_ext; [apply HDl; [exact Hp|lia]|]. intros i Hi. apply Hne; [exact Hp|lia|lia|lia]. }
    assert (Hat : forall p, p / 2 ^ Datatypes.S h = k -> val s' h p = mapping (Lz s k) (val s h p)).
    { intros p Hu. pose proof (node_leaf _ k p Hk Hu) as Hp. pose proof (proj1 (under_child h k p) Hu) as Hc.
      destruct h as [|h]; cbn [val].
      - rewrite Nat.pow_0_r, Nat.div_1_r in Hc. rewrite HD, decide_True by exact Hc. reflexivity.
      - rewrite HL. rewrite decide_False; [rewrite decide_True|].
        + rewrite (mpl_comp _ _ _ _ ML). rewrite Hbelow by (exact Hp || lia). reflexivity.
        + split; [exact Hc|]. apply (node_inner (Datatypes.S h)); [apply leaf_node; [exact Hp|lia]|lia].
        + lia. }
    assert (Habove : forall p j, leaf p -> h < j <= log -> val s' j p = val s j p).
    { intros p j Hp Hj. destruct (decide (p / 2 ^ Datatypes.S h = k)) as [Hu|Hu]; [|apply Hout; [exact Hp|exact Hu|lia]].
      apply (val_step s s' (Datatypes.S h)).
      - lia.
      - cbn [val]. rewrite Hu, Hat by exact Hu. rewrite HL, decide_True by reflexivity.
        apply (mpl_id _ _ _ _ ML).
      - intros i Hi. apply Hne; [exact Hp|lia|lia|lia]. }
    split.
    - exact L1.
    - exact L2.
    - intros p Hp. rewrite Habove by (exact Hp || lia). apply (R_val _ _ _ _ HR). exact Hp.
    - intros j x Hx _. pose proof (R_good _ _ _ _ HR j x Hx I) as Hg.
      assert (Hjl : j <= log) by apply Hx. pose proof (pow2_pos j) as Hpj.
      rewrite HD. destruct (decide (x = 2 * k \/ x = 2 * k + 1)) as [Hc|Hc].
      + assert (j = h) as -> by (destruct Hc as [->| ->]; eapply node_uniq; eassumption).
        rewrite Hg, Pr_map by nia. apply Pr_ext. intros p Hp. symmetry. apply Hat.
        apply under in Hp. apply under_child. rewrite Hp. exact Hc.
      + rewrite Hg. apply Pr_ext. intros p Hp. symmetry.
        apply under in Hp. pose proof (node_leaf j x p Hx Hp) as Hpl.
        destruct (lt_eq_lt_dec j h) as [[Hj|Hj]|Hj].
        * apply Hbelow; assumption.
        * subst j. apply Hout; [exact Hpl| |exact Hjl]. intros Hu. apply under_child in Hu. rewrite Hp in Hu. tauto.
        * apply Habove; [exact Hpl|lia].
    - intros j x Hj Hx [[-> ->]|(HC & X1 & X2)] v.
      + rewrite HL, decide_True by reflexivity. apply (mpl_id _ _ _ _ ML).
      + destruct (decide (x = k)) as [->|Hxk].
        * rewrite HL, decide_True by reflexivity. apply (mpl_id _ _ _ _ ML).
        * rewrite Hsame by assumption. apply (R_clean _ _ _ _ HR j); assumption.
  Qed.

  (** ** update *)
  Lemma R_update s A (G C : nat -> nat -> Prop) h k : R s A G C -> node (Datatypes.S h) k ->
    G h (2 * k) -> G h (2 * k + 1) -> C (Datatypes.S h) k ->
    exists s', update s k = Ok s' /\ R s' A (fun j x => G j x \/ (j = Datatypes.S h /\ x = k)) C.
  Proof.
    intros HR Hk G1 G2 Ck. pose proof (node_lt _ _ Hk) as Hkl.
    assert (k < size) as Hks by (apply (node_inner _ _ Hk); lia).
    pose proof (node_left _ _ Hk) as Hkl2. pose proof (node_right _ _ Hk) as Hkr2.
    pose proof (R_d _ _ _ _ HR) as Hd.
    unfold lt_update. destruct s as [d lz]. cbn [fst] in Hd.
    pose proof (D_get _ _ _ _ (2 * k) HR ltac:(lia)) as E1. pose proof (D_get _ _ _ _ (2 * k + 1) HR ltac:(lia)) as E2.
    cbn [fst] in E1, E2. rewrite E1. cbn [mbind res_bind]. rewrite E2. cbn [mbind res_bind].
    rewrite vset_ok by lia. cbn [mbind res_bind]. eexists. split; [reflexivity|].
    set (v := op _ _). set (s := (d, lz)) in *. set (s' := (<[k:=v]> d, lz)).
    assert (HD : forall x, D s' x = if decide (x = k) then v else D s x).
    { intros x. unfold D, s'. cbn. apply default_insert. lia. }
    assert (Hv : forall j p, leaf p -> val s' j p = val s j p).
    { intros j p Hp. apply val_ext.
      - rewrite HD, decide_False; [reflexivity|]. intros ->. destruct Hp. lia.
      - intros i _ y. reflexivity. }
    split.
    - unfold s'. cbn. rewrite insert_length. exact Hd.
    - apply (R_lz _ _ _ _ HR).
    - intros p Hp. rewrite Hv by exact Hp. apply (R_val _ _ _ _ HR). exact Hp.
    - intros j x Hx HG.
      rewrite (Pr_ext (val s' j) (val s j)).
      2:{ intros p Hp. apply Hv. apply (node_leaf j x); [exact Hx|apply under; exact Hp]. }
      rewrite HD. destruct (decide (x = k)) as [->|Hxk].
      + assert (j = Datatypes.S h) as -> by (eapply node_uniq; eassumption).
        unfold v. rewrite (R_good _ _ _ _ HR _ _ Hkl2 G1), (R_good _ _ _ _ HR _ _ Hkr2 G2).
        pose proof (pow2_pos h). rewrite <- Pr_app by nia. rewrite Nat.pow_succ_r'.
        replace (2 * k * 2 ^ h) with (k * (2 * 2 ^ h)) by lia.
        replace ((2 * k + 1 + 1) * 2 ^ h) with ((k + 1) * (2 * 2 ^ h)) by lia.
        apply Pr_ext. intros p Hp. rewrite <- Nat.pow_succ_r' in Hp. apply under in Hp. cbn [val]. rewrite Hp.
        symmetry. apply (R_clean _ _ _ _ HR (Datatypes.S h)); [lia|exact Hk|exact Ck].
      + apply (R_good _ _ _ _ HR); [exact Hx|]. destruct HG as [HG|[_ ?]]; [exact HG|congruence].
    - intros j x Hj Hx HC. apply (R_clean _ _ _ _ HR j); assumption.
  Qed.

  (** ** assignment to a leaf *)
  Lemma R_set_leaf s A G (C : nat -> nat -> Prop) p (x : S) : R s A G C -> leaf p ->
    (forall j, 0 < j <= log -> C j (p / 2 ^ j)) ->
    vset s.1 p x = Ok (<[p := x]> s.1) /\
    R (<[p := x]> s.1, s.2) (fun q => if decide (q = p) then x else A q) (fun j y => G j y /\ ~ anc 0 p j y) C.
  Proof.
    intros HR Hp HC. pose proof (R_d _ _ _ _ HR) as Hd. pose proof Hp as [Hp1 Hp2].
    split; [apply vset_ok; lia|].
    set (s' := (<[p:=x]> s.1, s.2)).
    assert (HD : forall y, D s' y = if decide (y = p) then x else D s y).
    { intros y. unfold D, s'. cbn. apply default_insert. lia. }
    assert (Hv : forall j q, q <> p -> val s' j q = val s j q).
    { intros j q Hq. apply val_ext; [rewrite HD, decide_False by exact Hq; reflexivity|]. intros i _ y. reflexivity. }
    assert (Hcl : val s' log p = x).
    { rewrite (val_clean s' 0); [cbn; rewrite HD, decide_True by reflexivity; reflexivity|lia|].
      intros j Hj. apply (R_clean _ _ _ _ HR j); [lia|apply leaf_node; [exact Hp|lia]|apply HC; lia]. }
    split.
    - unfold s'. cbn. rewrite insert_length. exact Hd.
    - apply (R_lz _ _ _ _ HR).
    - intros q Hq. destruct (decide (q = p)) as [->|Hne]; [exact Hcl|].
      rewrite Hv by exact Hne. apply (R_val _ _ _ _ HR). exact Hq.
    - intros j y Hy [HG Hna]. pose proof (R_good _ _ _ _ HR j y Hy HG) as Hg.
      rewrite HD. destruct (decide (y = p)) as [->|Hne].
      + assert (j = 0) as -> by (eapply node_uniq; [exact Hy|apply leaf_node0; exact Hp]).
        rewrite Nat.pow_0_r, !Nat.mul_1_r, Pr_one. cbn. rewrite HD, decide_True by reflexivity. reflexivity.
      + rewrite Hg. apply Pr_ext. intros q Hq. symmetry. apply Hv. intros ->. apply under in Hq. apply Hna.
        destruct (decide (j = 0)) as [->|Hj0].
        * rewrite Nat.pow_0_r, Nat.div_1_r in Hq. congruence.
        * split; [lia|]. rewrite Nat.sub_0_r. congruence.
    - intros j y Hj Hy HCy. apply (R_clean _ _ _ _ HR j); assumption.
  Qed.

  (** ** reading a node whose ancestors are clean *)
  Lemma R_read s A (G C : nat -> nat -> Prop) h k : R s A G C -> node h k -> G h k ->
    (forall j x, node j x -> anc h k j x -> C j x) ->
    vget s.1 k = Ok (Pr A (k * 2 ^ h) ((k + 1) * 2 ^ h)).
  Proof.
    intros HR Hk HG Hanc. pose proof (node_lt _ _ Hk). rewrite (D_get _ _ _ _ k HR) by lia. f_equal.
    rewrite (R_good _ _ _ _ HR h k Hk HG). apply Pr_ext. intros p Hp. apply under in Hp.
    pose proof (node_leaf h k p Hk Hp) as Hpl. rewrite <- (R_val _ _ _ _ HR p Hpl). symmetry.
    apply val_clean; [apply Hk|]. intros j Hj. pose proof (leaf_node j p Hpl ltac:(lia)) as Hn.
    apply (R_clean _ _ _ _ HR j); [lia|exact Hn|]. apply Hanc; [exact Hn|]. split; [lia|].
    rewrite <- Hp. apply div_up. lia.
  Qed.

  (** ** paths *)
  Definition on_path p j x : Prop := 0 < j /\ x = p / 2 ^ j.

  Lemma push_path_ok s A C p : R s A all C -> leaf p ->
    exists s', lt_push_path idm mapping comp size log s p = Ok s' /\ R s' A all (on_path p).
  Proof.
    intros HR Hp. unfold lt_push_path, range_incl.
    destruct (rfor_rev_range_inv (fun i s => R s A all (fun j x => i <= j /\ x = p / 2 ^ j))
      1 (Datatypes.S log) (fun i s => push s (p / 2 ^ i)) s) as (s' & E & HR').
    - lia.
    - eapply R_mono; [exact HR|reflexivity|intros; exact I|]. intros h k _ (Hh & _) [H _]. lia.
    - intros i s1 Hi H1. destruct i as [|i]; [lia|].
      destruct (R_push s1 A _ i (p / 2 ^ Datatypes.S i) H1) as (s2 & E2 & H2).
      { apply leaf_node; [exact Hp|lia]. }
      exists s2. split; [exact E2|]. eapply R_mono; [exact H2|reflexivity|intros; exact I|].
      intros h k _ Hk [H ->]. destruct (decide (h = Datatypes.S i)) as [->|Hne]; [left; auto|right].
      split; [split; [lia|reflexivity]|].
      assert (Hn : node (Datatypes.S i) (p / 2 ^ Datatypes.S i)) by (apply leaf_node; [exact Hp|lia]).
      split; intros E'; rewrite E' in Hk.
      + pose proof (node_uniq _ _ _ Hk (node_left _ _ Hn)). lia.
      + pose proof (node_uniq _ _ _ Hk (node_right _ _ Hn)). lia.
    - exists s'. split; [exact E|]. eapply R_mono; [exact HR'|reflexivity|intros; exact I|].
      intros h k Hh _ [_ ->]. split; [lia|reflexivity].
  Qed.

  Lemma update_path_ok s A p : leaf p ->
    R s A (fun j x => ~ anc 0 p j x) (on_path p) ->
    exists s', lt_update_path op log s p = Ok s' /\ R s' A all (on_path p).
  Proof.
    intros Hp HR. unfold lt_update_path, range_incl.
    destruct (rfor_range_inv (fun i s => R s A (fun j x => j < i \/ x <> p / 2 ^ j) (on_path p))
      1 (Datatypes.S log) (fun i s => update s (p / 2 ^ i)) s) as (s' & E & HR').
    - lia.
    - eapply R_mono; [exact HR|reflexivity| |auto]. intros h k _ [H|H] [Ha1 Ha2]; [lia|].
      rewrite Nat.sub_0_r in Ha2. congruence.
    - intros i s1 Hi H1. destruct i as [|i]; [lia|].
      destruct (R_update s1 A _ _ i (p / 2 ^ Datatypes.S i) H1) as (s2 & E2 & H2).
      + apply leaf_node; [exact Hp|lia].
      + left. lia.
      + left. lia.
      + split; [lia|reflexivity].
      + exists s2. split; [exact E2|]. eapply R_mono; [exact H2|reflexivity| |auto].
        intros h k _ [H|H]; [|left; right; exact H].
        destruct (decide (h = Datatypes.S i)) as [->|]; [|left; left; lia].
        destruct (decide (k = p / 2 ^ Datatypes.S i)) as [->|]; [right; auto|left; right; assumption].
    - exists s'. split; [exact E|]. eapply R_mono; [exact HR'|reflexivity| |auto].
      intros h k (Hh & _) _. left. lia.
  Qed.

  (** ** boundaries of a range *)
  Definition straddles l j x : Prop := x * 2 ^ j < l < (x + 1) * 2 ^ j.
  Definition bnd l r j x : Prop := straddles l j x \/ straddles r j x.

  Lemma straddled_true l i : straddled l i = true -> straddles l i (l / 2 ^ i).
  Proof.
    unfold straddled, straddles. destruct (Nat.eqb_spec (l / 2 ^ i * 2 ^ i) l) as [|Hne]; [discriminate|]. intros _.
    destruct (proj1 (under i (l / 2 ^ i) l) eq_refl). lia.
  Qed.
  Lemma straddles_div l i x : straddles l i x -> x = l / 2 ^ i /\ straddled l i = true.
  Proof.
    intros H. assert (l / 2 ^ i = x) as E by (apply under; unfold straddles in H; lia).
    split; [congruence|]. unfold straddled. rewrite E. unfold straddles in H.
    destruct (Nat.eqb_spec (x * 2 ^ i) l); [lia|reflexivity].
  Qed.
  Lemma straddles_node l i x : straddles l i x -> i <= log -> size <= l <= 2 * size -> node i x.
  Proof.
    intros H Hi Hl. unfold straddles in H. assert (leaf l).
    { split; [lia|]. destruct (decide (l = 2 * size)) as [->|]; [exfalso|lia].
      rewrite (size_split i Hi), Nat.mul_assoc in H. pose proof (pow2_pos i).
      assert (x < 2 * 2 ^ (log - i)) by nia. assert (2 * 2 ^ (log - i) < x + 1) by nia. lia. }
    assert (l / 2 ^ i = x) as <- by (apply under; lia). apply leaf_node; assumption.
  Qed.
  Lemma straddles_pred r i : straddles r i (r / 2 ^ i) -> (r - 1) / 2 ^ i = r / 2 ^ i.
  Proof. intros H. apply under. unfold straddles in H. lia. Qed.

  Lemma push_bounds_ok s A C l r (which : bool) : R s A all C -> size <= l <= 2 * size -> size <= r <= 2 * size ->
    exists s', rfor (rev (range_incl 1 log))
      (if which then lt_push_bounds idm mapping comp size l r else lt_push_bounds' idm mapping comp size l r) s = Ok s' /\
      R s' A all (bnd l r).
  Proof.
    intros HR Hl Hr. unfold range_incl.
    destruct (rfor_rev_range_inv (fun i s => R s A all (fun j x => i <= j /\ bnd l r j x))
      1 (Datatypes.S log) (if which then lt_push_bounds idm mapping comp size l r else lt_push_bounds' idm mapping comp size l r) s) as (s' & E & HR').
    - lia.
    - eapply R_mono; [exact HR|reflexivity|intros; exact I|]. intros h k _ (Hh & _) [H _]. lia.
    - clear s C HR. intros i s Hi HR. destruct i as [|i]; [lia|].
      assert (Hpush : forall s (C : nat -> nat -> Prop) q, R s A all C ->
        (forall j x, C j x -> Datatypes.S i <= j) -> straddles q (Datatypes.S i) (q / 2 ^ Datatypes.S i) ->
        size <= q <= 2 * size ->
        exists s', push s (q / 2 ^ Datatypes.S i) = Ok s' /\
          R s' A all (fun j x => C j x \/ (j = Datatypes.S i /\ straddles q j x))).
      { clear s HR. intros s C q HR HC Hst Hq.
        pose proof (straddles_node _ _ _ Hst ltac:(lia) Hq) as Hn.
        destruct (R_push s A C i _ HR Hn) as (s' & E & HR').
        exists s'. split; [exact E|]. eapply R_mono; [exact HR'|reflexivity|intros; exact I|].
        intros h k _ Hk [H|[-> H]].
        - right. split; [exact H|]. apply HC in H. split; intros E'; rewrite E' in Hk.
          + pose proof (node_uniq _ _ _ Hk (node_left _ _ Hn)). lia.
          + pose proof (node_uniq _ _ _ Hk (node_right _ _ Hn)). lia.
        - left. split; [reflexivity|]. apply straddles_div in H. apply H. }
      assert (Hs1 : exists s1, (if straddled l (Datatypes.S i) then push s (l / 2 ^ Datatypes.S i) else Ok s) = Ok s1 /\
        R s1 A all (fun j x => (Datatypes.S i + 1 <= j /\ bnd l r j x) \/ (j = Datatypes.S i /\ straddles l j x))).
      { destruct (straddled l (Datatypes.S i)) eqn:Est.
        - apply straddled_true in Est. apply Hpush; [exact HR|intros; lia|exact Est|exact Hl].
        - exists s. split; [reflexivity|]. eapply R_mono; [exact HR|reflexivity|intros; exact I|].
          intros h k _ Hk [H|[-> H]]; [exact H|]. apply straddles_div in H as [_ H]. congruence. }
      destruct Hs1 as (s1 & E1 & H1).
      assert (Hs2 : exists s2, (if straddled r (Datatypes.S i) then push s1 (r / 2 ^ Datatypes.S i) else Ok s1) = Ok s2 /\
        R s2 A all (fun j x => Datatypes.S i <= j /\ bnd l r j x)).
      { destruct (straddled r (Datatypes.S i)) eqn:Est.
        - apply straddled_true in Est. destruct (Hpush s1 _ r H1) as (s2 & E2 & H2); [intros j x [[? _]|[? _]]; lia|exact Est|exact Hr|].
          exists s2. split; [exact E2|]. eapply R_mono; [exact H2|reflexivity|intros; exact I|].
          intros h k _ Hk [H Hb]. destruct (decide (h = Datatypes.S i)) as [->|]; [|left; left; split; [lia|exact Hb]].
          destruct Hb as [Hb|Hb]; [left; right; auto|right; auto].
        - exists s1. split; [reflexivity|]. eapply R_mono; [exact H1|reflexivity|intros; exact I|].
          intros h k _ Hk [H Hb]. destruct (decide (h = Datatypes.S i)) as [->|]; [|left; split; [lia|exact Hb]].
          destruct Hb as [Hb|Hb]; [right; auto|]. apply straddles_div in Hb as [_ Hb]. congruence. }
      destruct Hs2 as (s2 & E2 & H2). exists s2. split; [|exact H2].
      destruct which.
      + unfold lt_push_bounds. rewrite E1. cbn [mbind res_bind]. exact E2.
      + unfold lt_push_bounds'. rewrite E1. cbn [mbind res_bind].
        destruct (straddled r (Datatypes.S i)) eqn:Est; [|exact E2].
        apply straddled_true in Est. pose proof (pow2_pos log). rewrite nsub_ok by lia. cbn [mbind res_bind].
        rewrite straddles_pred by exact Est. exact E2.
    - exists s'. split; [exact E|]. eapply R_mono; [exact HR'|reflexivity|intros; exact I|].
      intros h k Hh _ Hb. split; [lia|exact Hb].
  Qed.

  (** the ancestors of the nodes met by the range loops are boundary nodes *)
  Lemma bnd_left l r h l' j x : Nat.odd l' = true -> (l' - 1) * 2 ^ h < l <= l' * 2 ^ h -> anc h l' j x -> bnd l r j x.
  Proof.
    intros Ho Hl [Hj ->]. left. destruct (anc_range h l' j Hj) as [H1 H2].
    apply Nat.odd_spec in Ho as [m ->]. replace ((2 * m + 1) / 2) with m in * by (apply (Nat.div_unique _ _ _ 1); lia).
    unfold straddles. pose proof (pow2_pos h). nia.
  Qed.
  Lemma bnd_right l r h r' j x : Nat.odd r' = true -> r' * 2 ^ h <= r < (r' + 1) * 2 ^ h -> anc h (r' - 1) j x -> bnd l r j x.
  Proof.
    intros Ho Hl [Hj ->]. right. destruct (anc_range h (r' - 1) j Hj) as [H1 H2].
    apply Nat.odd_spec in Ho as [m ->]. replace ((2 * m + 1 - 1) / 2) with m in * by (apply (Nat.div_unique _ _ _ 0); lia).
    unfold straddles. pose proof (pow2_pos h). nia.
  Qed.

  Lemma range_node h l' r' : h <= log -> size <= l' * 2 ^ h -> l' < r' -> r' * 2 ^ h <= 2 * size -> node h l' /\ node h (r' - 1).
  Proof.
    intros Hh H1 H2 H3. pose proof (pow2_pos h). split; (split; [exact Hh|]); split; nia.
  Qed.

  (** ** the product loop *)
  Lemma prod_loop_ok s A G l r : R s A G (bnd l r) -> (forall h k, G h k) -> size <= l -> l <= r <= 2 * size ->
    exists sml smr, rloop (r + 1) (st_prod_step op s.1) (l, r, e, e) = Ok (sml, smr) /\ op sml smr = Pr A l r.
  Proof.
    intros HR HG Hl Hlr.
    destruct (rloop_inv_idx
      (fun m '(l', r', sml, smr) => m = r' /\ (l' < r' \/ op sml smr = Pr A l r) /\ (l' < r' -> exists h, h <= log /\
          size <= l' * 2 ^ h /\ r' * 2 ^ h <= 2 * size /\
          (l' - 1) * 2 ^ h < l <= l' * 2 ^ h /\ r' * 2 ^ h <= r < (r' + 1) * 2 ^ h /\
          op (op sml (Pr A (l' * 2 ^ h) (r' * 2 ^ h))) smr = Pr A l r))
      (fun '(sml, smr) => op sml smr = Pr A l r)
      (st_prod_step op s.1)) with (fuel := r + 1) (m := r) (s := (l, r, e, e)) as ([sml smr] & E & Hq).
    - intros m [[[l' r'] sml] smr] (-> & Hor & Hinv). unfold st_prod_step.
      destruct (Nat.ltb_spec l' r') as [Hlt|Hge].
      2:{ eexists. split; [reflexivity|]. destruct Hor as [|H]; [lia|exact H]. }
      destruct (Hinv Hlt) as (h & Hh & H1 & H2 & H3 & H4 & H5). clear Hinv Hor.
      pose proof (pow2_pos h) as Hph. pose proof (range_node h l' r' Hh H1 Hlt H2) as [N1 N2].
      assert (exists l1 sml1,
        (if Nat.odd l' then x ← vget s.1 l'; Ok (l' + 1, op sml x) else Ok (l', sml)) = Ok (l1, sml1) /\
        Nat.even l1 = true /\ l' <= l1 <= l' + 1 /\ l1 <= r' /\ l <= l1 * 2 ^ h /\ (l1 - 2) * 2 ^ h < l /\
        op (op sml1 (Pr A (l1 * 2 ^ h) (r' * 2 ^ h))) smr = Pr A l r) as (l1 & sml1 & -> & He1 & Hl1 & Hl1r & Hl2 & Hl3 & H6).
      { destruct (Nat.odd l') eqn:Ho.
        - rewrite (R_read s A G (bnd l r) h l' HR N1 (HG _ _)).
          2:{ intros j x _ Ha. eapply bnd_left; eassumption. }
          cbn [mbind res_bind]. eexists _, _. split; [reflexivity|].
          split; [rewrite Nat.add_1_r, Nat.even_succ; exact Ho|]. split; [lia|]. split; [lia|]. split; [nia|].
          split; [replace (l' + 1 - 2) with (l' - 1) by lia; lia|].
          rewrite <- H5. f_equal. rewrite <- (ml_assoc _ _ L). f_equal. symmetry. apply Pr_app. nia.
        - eexists _, _. split; [reflexivity|]. split; [rewrite <- Nat.negb_odd, Ho; reflexivity|].
          split; [lia|]. split; [lia|]. split; [lia|]. split; [nia|]. exact H5. }
      cbn [mbind res_bind].
      assert (exists r1 smr1,
        (if Nat.odd r' then r ← nsub r' 1; x ← vget s.1 r; Ok (r, op x smr) else Ok (r', smr)) = Ok (r1, smr1) /\
        Nat.even r1 = true /\ l1 <= r1 /\ r' - 1 <= r1 <= r' /\
        op (op sml1 (Pr A (l1 * 2 ^ h) (r1 * 2 ^ h))) smr1 = Pr A l r) as (r1 & smr1 & -> & He2 & Hr1 & Hr2 & H7).
      { destruct (Nat.odd r') eqn:Ho.
        - assert (l1 < r') as Hlr1.
          { destruct (decide (l1 = r')) as [->|]; [|lia]. rewrite <- Nat.negb_odd, Ho in He1. discriminate. }
          rewrite nsub_ok by lia. cbn [mbind res_bind].
          rewrite (R_read s A G (bnd l r) h (r' - 1) HR N2 (HG _ _)).
          2:{ intros j x _ Ha. eapply bnd_right; eassumption. }
          cbn [mbind res_bind]. eexists _, _. split; [reflexivity|]. split.
          { destruct r' as [|r'']; [lia|]. rewrite Nat.odd_succ in Ho.
            replace (Datatypes.S r'' - 1) with r'' by lia. exact Ho. }
          split; [lia|]. split; [lia|].
          rewrite <- H6. rewrite <- !(ml_assoc _ _ L). f_equal. rewrite !(ml_assoc _ _ L). f_equal.
          rewrite (Pr_app A (l1 * 2 ^ h) ((r' - 1) * 2 ^ h) (r' * 2 ^ h)) by nia. f_equal. f_equal. nia.
        - eexists _, _. split; [reflexivity|]. split; [rewrite <- Nat.negb_odd, Ho; reflexivity|].
          split; [lia|]. split; [lia|]. exact H6. }
      cbn [mbind res_bind]. eexists. split; [reflexivity|]. cbn.
      apply Nat.even_spec in He1, He2. destruct He1 as [l2 ->]. destruct He2 as [r2 ->].
      assert (2 * l2 / 2 = l2) as El by (rewrite Nat.mul_comm; apply Nat.div_mul; lia).
      assert (2 * r2 / 2 = r2) as Er by (rewrite Nat.mul_comm; apply Nat.div_mul; lia).
      rewrite El, Er. exists r2. split; [lia|]. split; [reflexivity|]. split.
      { destruct (decide (l2 < r2)); [left; assumption|right]. rewrite <- H7. rewrite Pr_nil by nia.
        rewrite (ml_idr _ _ L). reflexivity. }
      intros Hlt2. exists (Datatypes.S h). rewrite Nat.pow_succ_r'.
      replace (l2 * (2 * 2 ^ h)) with (2 * l2 * 2 ^ h) by lia. replace (r2 * (2 * 2 ^ h)) with (2 * r2 * 2 ^ h) by lia.
      split.
      { apply (Nat.pow_le_mono_r_iff 2); [lia|]. rewrite Nat.pow_succ_r'. nia. }
      split; [nia|]. split; [nia|]. split; [nia|]. split; [nia|]. exact H7.
    - split; [reflexivity|]. split.
      { destruct (decide (l < r)); [left; assumption|right]. rewrite Pr_nil by lia. apply (ml_idl _ _ L). }
      intros Hlt. exists 0. rewrite Nat.pow_0_r, !Nat.mul_1_r. split; [lia|]. split; [lia|]. split; [lia|].
      split; [pose proof (pow2_pos log); lia|]. split; [lia|].
      rewrite (ml_idl _ _ L), (ml_idr _ _ L). reflexivity.
    - lia.
    - eauto.
  Qed.

  (** ** the range-apply loop *)
  Lemma bnd_not_left l r h l' : size <= l <= 2 * size -> size <= r <= 2 * size -> node h l' ->
    l <= l' * 2 ^ h -> (l' + 1) * 2 ^ h <= r -> ~ (exists j, node j l' /\ bnd l r j l').
  Proof.
    intros Hl Hr N H1 H2 (j & Nj & [Hb|Hb]); (assert (j = h) as -> by (eapply node_uniq; eassumption));
      unfold straddles in Hb; lia.
  Qed.

  Lemma apply_loop_ok s A l r f : R s A all (bnd l r) -> size <= l -> l <= r <= 2 * size ->
    exists s', rloop (r + 1) (lt_apply_step mapping comp size f) (l, r, s) = Ok s' /\
      R s' (fun p => if decide (l <= p < r) then mapping f (A p) else A p) (fun j x => ~ bnd l r j x) (bnd l r).
  Proof.
    intros HR Hl Hlr.
    set (part := fun a b p => if decide (l <= p < a \/ b <= p < r) then mapping f (A p) else A p).
    assert (Hpart : forall a b a' b' s, R s (part a b) (fun j x => ~ bnd l r j x) (bnd l r) ->
      (forall p, leaf p -> (l <= p < a \/ b <= p < r) <-> (l <= p < a' \/ b' <= p < r)) ->
      R s (part a' b') (fun j x => ~ bnd l r j x) (bnd l r)).
    { intros a b a' b' s0 H0 He. eapply R_mono; [exact H0| |auto|auto]. intros p Hp. unfold part.
      specialize (He p Hp). destruct (decide _), (decide _); try reflexivity; exfalso; tauto. }
    assert (Hstep : forall s h k a b a' b', R s (part a b) (fun j x => ~ bnd l r j x) (bnd l r) -> node h k ->
      (forall j x, node j x -> anc h k j x -> bnd l r j x) -> l <= k * 2 ^ h -> (k + 1) * 2 ^ h <= r ->
      (forall p, leaf p -> (l <= p < a' \/ b' <= p < r) <-> ((l <= p < a \/ b <= p < r) \/ k * 2 ^ h <= p < (k + 1) * 2 ^ h)) ->
      (forall p, k * 2 ^ h <= p < (k + 1) * 2 ^ h -> ~ (l <= p < a \/ b <= p < r)) ->
      exists s', all_apply s k f = Ok s' /\ R s' (part a' b') (fun j x => ~ bnd l r j x) (bnd l r)).
    { clear s HR. intros s h k a b a' b' HR N Ha Hk1 Hk2 He Hd.
      destruct (R_all_apply s _ _ _ h k f HR N Ha) as (s' & E & HR'). exists s'. split; [exact E|].
      eapply R_mono; [exact HR'| | |].
      - intros p Hp. unfold part. specialize (He p Hp). specialize (Hd p). pose proof (under h k p) as Hu.
        repeat (destruct (decide _)); try reflexivity; exfalso; tauto.
      - intros j x Hx Hb. split; [exact Hb|]. intros Hanc. apply Hb. apply Ha; assumption.
      - intros j x _ Hx Hb. split; [exact Hb|]. intros ->.
        apply (bnd_not_left l r h k); [lia|lia|exact N|exact Hk1|exact Hk2|]. exists j. auto. }
    destruct (rloop_inv_idx
      (fun m '(l', r', s) => m = r' /\
         ((l' < r' /\ exists h, h <= log /\ size <= l' * 2 ^ h /\ r' * 2 ^ h <= 2 * size /\
          (l' - 1) * 2 ^ h < l <= l' * 2 ^ h /\ r' * 2 ^ h <= r < (r' + 1) * 2 ^ h /\
          R s (part (l' * 2 ^ h) (r' * 2 ^ h)) (fun j x => ~ bnd l r j x) (bnd l r)) \/
          (r' <= l' /\ R s (part r r) (fun j x => ~ bnd l r j x) (bnd l r))))
      (fun s => R s (part r r) (fun j x => ~ bnd l r j x) (bnd l r))
      (lt_apply_step mapping comp size f)) with (fuel := r + 1) (m := r) (s := (l, r, s)) as (s' & E & Hq).
    - clear s HR. intros m [[l' r'] s] (-> & Hinv). unfold lt_apply_step.
      destruct (Nat.ltb_spec l' r') as [Hlt|Hge].
      2:{ eexists. split; [reflexivity|]. destruct Hinv as [[? _]|[_ H]]; [lia|exact H]. }
      destruct Hinv as [[_ (h & Hh & H1 & H2 & H3 & H4 & HR)]|[? _]]; [|lia].
      pose proof (pow2_pos h) as Hph. pose proof (range_node h l' r' Hh H1 Hlt H2) as [N1 N2].
      assert (exists l1 s1,
        (if Nat.odd l' then s ← all_apply s l' f; Ok (l' + 1, s) else Ok (l', s)) = Ok (l1, s1) /\
        Nat.even l1 = true /\ l' <= l1 <= l' + 1 /\ l1 <= r' /\ l <= l1 * 2 ^ h /\ (l1 - 2) * 2 ^ h < l /\
        R s1 (part (l1 * 2 ^ h) (r' * 2 ^ h)) (fun j x => ~ bnd l r j x) (bnd l r))
        as (l1 & s1 & -> & He1 & Hl1 & Hl1r & Hl2 & Hl3 & HR1).
      { destruct (Nat.odd l') eqn:Ho.
        - destruct (Hstep s h l' _ _ ((l' + 1) * 2 ^ h) (r' * 2 ^ h) HR N1) as (s1 & -> & HR1).
          + intros j x _ Ha. eapply bnd_left; eassumption.
          + lia.
          + nia.
          + intros p Hp. nia.
          + intros p Hp. nia.
          + cbn [mbind res_bind]. eexists _, _. split; [reflexivity|].
            split; [rewrite Nat.add_1_r, Nat.even_succ; exact Ho|]. split; [lia|]. split; [lia|]. split; [nia|].
            split; [replace (l' + 1 - 2) with (l' - 1) by lia; lia|]. exact HR1.
        - eexists _, _. split; [reflexivity|]. split; [rewrite <- Nat.negb_odd, Ho; reflexivity|].
          split; [lia|]. split; [lia|]. split; [lia|]. split; [nia|]. exact HR. }
      cbn [mbind res_bind].
      assert (exists r1 s2,
        (if Nat.odd r' then r ← nsub r' 1; s ← all_apply s1 r f; Ok (r, s) else Ok (r', s1)) = Ok (r1, s2) /\
        Nat.even r1 = true /\ l1 <= r1 /\ r' - 1 <= r1 <= r' /\
        R s2 (part (l1 * 2 ^ h) (r1 * 2 ^ h)) (fun j x => ~ bnd l r j x) (bnd l r))
        as (r1 & s2 & -> & He2 & Hr1 & Hr2 & HR2).
      { destruct (Nat.odd r') eqn:Ho.
        - assert (l1 < r') as Hlr1.
          { destruct (decide (l1 = r')) as [->|]; [|lia]. rewrite <- Nat.negb_odd, Ho in He1. discriminate. }
          rewrite nsub_ok by lia. cbn [mbind res_bind].
          destruct (Hstep s1 h (r' - 1) _ _ (l1 * 2 ^ h) ((r' - 1) * 2 ^ h) HR1 N2) as (s2 & -> & HR2).
          + intros j x _ Ha. eapply bnd_right; eassumption.
          + nia.
          + nia.
          + intros p Hp. replace (r' - 1 + 1) with r' by lia.
            assert ((r' - 1) * 2 ^ h <= r' * 2 ^ h) by nia. assert (l1 * 2 ^ h <= (r' - 1) * 2 ^ h) by nia. lia.
          + intros p Hp. replace (r' - 1 + 1) with r' in Hp by lia. assert (l1 * 2 ^ h <= (r' - 1) * 2 ^ h) by nia. lia.
          + cbn [mbind res_bind]. eexists _, _. split; [reflexivity|]. split.
            { destruct r' as [|r'']; [lia|]. rewrite Nat.odd_succ in Ho.
              replace (Datatypes.S r'' - 1) with r'' by lia. exact Ho. }
            split; [lia|]. split; [lia|]. exact HR2.
        - eexists _, _. split; [reflexivity|]. split; [rewrite <- Nat.negb_odd, Ho; reflexivity|].
          split; [lia|]. split; [lia|]. exact HR1. }
      cbn [mbind res_bind]. eexists. split; [reflexivity|]. cbn.
      apply Nat.even_spec in He1, He2. destruct He1 as [l2 ->]. destruct He2 as [r2 ->].
      assert (2 * l2 / 2 = l2) as El by (rewrite Nat.mul_comm; apply Nat.div_mul; lia).
      assert (2 * r2 / 2 = r2) as Er by (rewrite Nat.mul_comm; apply Nat.div_mul; lia).
      rewrite El, Er. exists r2. split; [lia|]. split; [reflexivity|].
      destruct (decide (l2 < r2)) as [Hlt2|Hge2].
      + left. split; [exact Hlt2|]. exists (Datatypes.S h). rewrite Nat.pow_succ_r'.
        replace (l2 * (2 * 2 ^ h)) with (2 * l2 * 2 ^ h) by lia. replace (r2 * (2 * 2 ^ h)) with (2 * r2 * 2 ^ h) by lia.
        split.
        { apply (Nat.pow_le_mono_r_iff 2); [lia|]. rewrite Nat.pow_succ_r'. nia. }
        split; [nia|]. split; [nia|]. split; [nia|]. split; [nia|]. exact HR2.
      + right. split; [lia|]. eapply Hpart; [exact HR2|]. intros p Hp.
        assert (l2 = r2) as -> by lia. assert (2 * r2 * 2 ^ h <= r) by nia. lia.
    - split; [reflexivity|]. assert (HR0 : R s (part l r) (fun j x => ~ bnd l r j x) (bnd l r)).
      { eapply R_mono; [exact HR| |intros; exact I|auto]. intros p Hp. unfold part. rewrite decide_False by lia. reflexivity. }
      destruct (decide (l < r)) as [Hlt|Hge].
      + left. split; [exact Hlt|]. exists 0. rewrite Nat.pow_0_r, !Nat.mul_1_r. split; [lia|]. split; [lia|]. split; [lia|].
        split; [pose proof (pow2_pos log); lia|]. split; [lia|]. exact HR0.
      + right. split; [lia|]. eapply Hpart; [exact HR0|]. intros p Hp. lia.
    - lia.
    - exists s'. split; [exact E|]. eapply R_mono; [exact Hq| |auto|auto]. intros p Hp. unfold part.
      destruct (decide _), (decide _); try reflexivity; exfalso; lia.
  Qed.

  Lemma update_bounds_ok s A l r : R s A (fun j x => ~ bnd l r j x) (bnd l r) -> size <= l <= 2 * size -> size <= r <= 2 * size ->
    exists s', rfor (range_incl 1 log) (lt_update_bounds op l r) s = Ok s' /\ R s' A all (bnd l r).
  Proof.
    intros HR Hl Hr. unfold range_incl.
    destruct (rfor_range_inv (fun i s => R s A (fun j x => j < i \/ ~ bnd l r j x) (bnd l r))
      1 (Datatypes.S log) (lt_update_bounds op l r) s) as (s' & E & HR').
    - lia.
    - eapply R_mono; [exact HR|reflexivity| |auto]. intros h k Hk [H|H]; [|exact H].
      assert (h = 0) as -> by lia. intros [Hb|Hb]; unfold straddles in Hb; rewrite Nat.pow_0_r in Hb; lia.
    - clear s HR. intros i s Hi HR. destruct i as [|i]; [lia|].
      assert (Hupd : forall s (G : nat -> nat -> Prop) q, R s A G (bnd l r) -> (forall j x, j < Datatypes.S i -> G j x) ->
        straddles q (Datatypes.S i) (q / 2 ^ Datatypes.S i) -> bnd l r (Datatypes.S i) (q / 2 ^ Datatypes.S i) ->
        size <= q <= 2 * size ->
        exists s', update s (q / 2 ^ Datatypes.S i) = Ok s' /\
          R s' A (fun j x => G j x \/ (j = Datatypes.S i /\ straddles q j x)) (bnd l r)).
      { clear s HR. intros s G q HR HG Hst Hb Hq.
        pose proof (straddles_node _ _ _ Hst ltac:(lia) Hq) as Hn.
        destruct (R_update s A G _ i _ HR Hn) as (s' & E & HR'); [apply HG; lia|apply HG; lia|exact Hb|].
        exists s'. split; [exact E|]. eapply R_mono; [exact HR'|reflexivity| |auto].
        intros h k Hk [H|[-> H]]; [left; exact H|right]. split; [reflexivity|]. apply straddles_div in H. apply H. }
      assert (Hs1 : exists s1, (if straddled l (Datatypes.S i) then update s (l / 2 ^ Datatypes.S i) else Ok s) = Ok s1 /\
        R s1 A (fun j x => (j < Datatypes.S i \/ ~ bnd l r j x) \/ (j = Datatypes.S i /\ straddles l j x)) (bnd l r)).
      { destruct (straddled l (Datatypes.S i)) eqn:Est.
        - apply straddled_true in Est. apply Hupd; [exact HR|intros; left; lia|exact Est|left; exact Est|exact Hl].
        - exists s. split; [reflexivity|]. eapply R_mono; [exact HR|reflexivity| |auto].
          intros h k Hk [H|[-> H]]; [exact H|]. apply straddles_div in H as [_ H]. congruence. }
      destruct Hs1 as (s1 & E1 & H1).
      assert (Hs2 : exists s2, (if straddled r (Datatypes.S i) then update s1 (r / 2 ^ Datatypes.S i) else Ok s1) = Ok s2 /\
        R s2 A (fun j x => j < Datatypes.S i + 1 \/ ~ bnd l r j x) (bnd l r)).
      { destruct (straddled r (Datatypes.S i)) eqn:Est.
        - apply straddled_true in Est. destruct (Hupd s1 _ r H1) as (s2 & E2 & H2); [intros; left; left; lia|exact Est|right; exact Est|exact Hr|].
          exists s2. split; [exact E2|]. eapply R_mono; [exact H2|reflexivity| |auto].
          intros h k Hk [H|H]; [|left; left; right; exact H].
          destruct (decide (h = Datatypes.S i)) as [->|]; [|left; left; left; lia].
          destruct (decide (straddles l (Datatypes.S i) k)); [left; right; auto|].
          destruct (decide (straddles r (Datatypes.S i) k)); [right; auto|]. left; left; right. intros [?|?]; tauto.
        - exists s1. split; [reflexivity|]. eapply R_mono; [exact H1|reflexivity| |auto].
          intros h k Hk [H|H]; [|left; right; exact H].
          destruct (decide (h = Datatypes.S i)) as [->|]; [|left; left; lia].
          destruct (decide (straddles l (Datatypes.S i) k)); [right; auto|]. left; right. intros [Hb|Hb]; [tauto|].
          apply straddles_div in Hb as [_ Hb]. congruence. }
      destruct Hs2 as (s2 & E2 & H2). exists s2. split; [|exact H2].
      unfold lt_update_bounds. rewrite E1. cbn [mbind res_bind].
      destruct (straddled r (Datatypes.S i)) eqn:Est; [|exact E2].
      apply straddled_true in Est. pose proof (pow2_pos log). rewrite nsub_ok by lia. cbn [mbind res_bind].
      rewrite straddles_pred by exact Est. exact E2.
    - exists s'. split; [exact E|]. eapply R_mono; [exact HR'|reflexivity| |auto].
      intros h k (Hh & _) _. left. lia.
  Qed.

  (** ** searches *)
  Lemma height_lt h : h <= log -> h < size + 1.
  Proof.
    intros H. assert (h < 2 ^ h) by (apply Nat.pow_gt_lin_r; lia).
    assert (2 ^ h <= size) by (apply Nat.pow_le_mono_r; lia). lia.
  Qed.

  (** after pushing k, the ancestors of its children are clean *)
  Lemma R_push_down s A C h k : R s A all C -> node (Datatypes.S h) k ->
    (forall j x, node j x -> anc (Datatypes.S h) k j x -> C j x) ->
    exists s' C', push s k = Ok s' /\ R s' A all C' /\
      (forall c, c = 2 * k \/ c = 2 * k + 1 -> forall j x, node j x -> anc h c j x -> C' j x).
  Proof.
    intros HR Hk Ha. destruct (R_push s A C h k HR Hk) as (s' & E & HR').
    exists s'. eexists. split; [exact E|]. split; [exact HR'|].
    intros c Hc j x Hx [Hj ->].
    assert (Hck : c / 2 = k).
    { symmetry. destruct Hc as [->| ->]; [apply (Nat.div_unique _ _ _ 0)|apply (Nat.div_unique _ _ _ 1)]; lia. }
    destruct (decide (j = Datatypes.S h)) as [->|Hjne].
    - left. split; [reflexivity|]. replace (Datatypes.S h - h) with 1 by lia. exact Hck.
    - right. assert (Hx' : c / 2 ^ (j - h) = k / 2 ^ (j - Datatypes.S h)).
      { rewrite (div_up 1 (j - h)) by lia. change (2 ^ 1) with 2. rewrite Hck. f_equal. f_equal. lia. }
      rewrite Hx' in *. split; [apply Ha; [exact Hx|split; [lia|reflexivity]]|].
      split; intros E'; rewrite E' in Hx.
      + pose proof (node_uniq _ _ _ Hx (node_left _ _ Hk)). lia.
      + pose proof (node_uniq _ _ _ Hx (node_right _ _ Hk)). lia.
  Qed.

  Lemma descend_right_ok s A C g l h sm l0 : R s A all C -> node h l ->
    (forall j x, node j x -> anc h l j x -> C j x) -> l0 <= l * 2 ^ h ->
    sm = Pr A l0 (l * 2 ^ h) -> g sm = true -> g (op sm (Pr A (l * 2 ^ h) ((l + 1) * 2 ^ h))) = false ->
    exists s' r C', lt_descend_right op idm mapping comp size g s l sm = Ok (s', r) /\ R s' A all C' /\
      l0 <= size + r < 2 * size /\ g (Pr A l0 (size + r)) = true /\ g (Pr A l0 (size + r + 1)) = false.
  Proof.
    intros HR Hn Ha Hl0 Hsm Ht Hf. unfold lt_descend_right.
    match goal with |- context [rloop _ ?st _] => set (step := st) end.
    destruct (rloop_inv_idx
      (fun h '(s, l, sm) => exists C, R s A all C /\ node h l /\ (forall j x, node j x -> anc h l j x -> C j x) /\
         l0 <= l * 2 ^ h /\ sm = Pr A l0 (l * 2 ^ h) /\ g sm = true /\
         g (op sm (Pr A (l * 2 ^ h) ((l + 1) * 2 ^ h))) = false)
      (fun '(s, l) => exists C, R s A all C /\ leaf l /\ l0 <= l /\ g (Pr A l0 l) = true /\ g (Pr A l0 (l + 1)) = false)
      step) with (fuel := size + 1) (m := h) (s := (s, l, sm)) as ([s' l'] & E & C' & HR' & Hl' & H1 & H2 & H3).
    - clear s C l h sm HR Hn Ha Hl0 Hsm Ht Hf.
      intros h [[s l] sm] (C & HR & Hn & Ha & Hl0 & -> & Ht & Hf). unfold step.
      destruct h as [|h].
      + assert (~ l < size) by (intros H; apply (node_inner _ _ Hn) in H; lia).
        destruct (Nat.ltb_spec l size); [lia|]. eexists. split; [reflexivity|]. cbn.
        rewrite Nat.pow_0_r, !Nat.mul_1_r in *. exists C. split; [exact HR|].
        pose proof (node_lt _ _ Hn). split; [unfold leaf; lia|]. split; [exact Hl0|]. split; [exact Ht|].
        rewrite (Pr_app A l0 l) by lia. exact Hf.
      + assert (l < size) as Hls by (apply (node_inner _ _ Hn); lia).
        destruct (Nat.ltb_spec l size); [|lia].
        destruct (R_push_down s A C h l HR Hn Ha) as (s1 & C1 & -> & HR1 & Ha1). cbn [mbind res_bind].
        rewrite (R_read s1 A all C1 h (2 * l) HR1 (node_left _ _ Hn) I (Ha1 _ (or_introl eq_refl))). cbn [mbind res_bind].
        pose proof (pow2_pos h) as Hph. rewrite Nat.pow_succ_r' in *.
        replace (l * (2 * 2 ^ h)) with (2 * l * 2 ^ h) in * by lia.
        replace ((l + 1) * (2 * 2 ^ h)) with ((2 * l + 2) * 2 ^ h) in * by lia.
        rewrite <- Pr_app by nia.
        destruct (g (Pr A l0 ((2 * l + 1) * 2 ^ h))) eqn:Hg; (eexists; split; [reflexivity|]; cbn; exists h; split; [lia|]; exists C1; split; [exact HR1|]).
        * split; [apply node_right; exact Hn|]. split; [apply Ha1; auto|]. split; [nia|]. split; [reflexivity|].
          split; [exact Hg|]. rewrite <- Pr_app by nia. rewrite <- Hf. rewrite <- Pr_app by nia. f_equal. f_equal. lia.
        * split; [apply node_left; exact Hn|]. split; [apply Ha1; auto|]. split; [nia|]. split; [reflexivity|].
          split; [exact Ht|]. rewrite <- Pr_app by nia. exact Hg.
    - exists C. auto 10.
    - apply height_lt. apply Hn.
    - rewrite E. cbn [mbind res_bind]. unfold leaf in Hl'. rewrite nsub_ok by lia. cbn [mbind res_bind].
      exists s', (l' - size), C'. split; [reflexivity|]. split; [exact HR'|].
      replace (size + (l' - size)) with l' by lia. split; [lia|]. auto.
  Qed.

  (** the part of the search state that does not mention the array *)
  Lemma max_right_ok s A n g l0 : R s A all (on_path l0) -> leaf l0 -> g e = true ->
    exists s' r C', rloop (2 * size + 1) (lt_max_right_step op idm mapping comp n size g) (s, l0, e) = Ok (s', r) /\ R s' A all C' /\
      ((r = n /\ g (Pr A l0 (2 * size)) = true) \/
       (l0 <= size + r < 2 * size /\ g (Pr A l0 (size + r)) = true /\ g (Pr A l0 (size + r + 1)) = false)).
  Proof.
    intros HR Hl0 Hge.
    destruct (rloop_inv_idx
      (fun m '(s', l, sm) => s' = s /\ exists h, m + l * 2 ^ h = 2 * size /\ l * 2 ^ h < 2 * size /\
          l0 <= l * 2 ^ h /\ (l0 = l * 2 ^ h \/ (Nat.even l = true /\ (l - 2) * 2 ^ h <= l0)) /\
          sm = Pr A l0 (l * 2 ^ h) /\ g sm = true)
      (fun '(s', r) => exists C', R s' A all C' /\
        ((r = n /\ g (Pr A l0 (2 * size)) = true) \/
         (l0 <= size + r < 2 * size /\ g (Pr A l0 (size + r)) = true /\ g (Pr A l0 (size + r + 1)) = false)))
      (lt_max_right_step op idm mapping comp n size g)) with (fuel := 2 * size + 1) (m := 2 * size - l0) (s := (s, l0, e))
      as ([s' r] & E & C' & H); [|split; [reflexivity|]; exists 0; rewrite Nat.pow_0_r, Nat.mul_1_r|lia|].
    2:{ unfold leaf in Hl0. split; [lia|]. split; [lia|]. split; [lia|]. split; [auto|].
        rewrite Pr_nil by lia. auto. }
    2:{ exists s', r, C'. auto. }
    intros m [[s' l] sm] (-> & h & H1 & H2 & H3 & H4 & -> & H5). unfold lt_max_right_step.
    unfold leaf in Hl0. pose proof (pow2_pos log) as Hsz.
    assert (0 < l) as Hl by nia.
    destruct (strip_even_spec l Hl) as (k & l' & -> & Hll & Hodd). cbn [mbind res_bind].
    assert (Hpar : (l' - 1) * 2 ^ (k + h) <= l0).
    { rewrite Nat.pow_add_r. destruct H4 as [->|[Hev H4]]; [subst l; nia|].
      destruct k as [|k].
      { rewrite Nat.pow_0_r, Nat.mul_1_r in Hll. subst l'. rewrite <- Nat.negb_even, Hev in Hodd. discriminate. }
      rewrite Nat.pow_succ_r' in *. pose proof (pow2_pos k).
      transitivity ((l - 2) * 2 ^ h); [|exact H4].
      rewrite Nat.mul_assoc. apply Nat.mul_le_mono_r. subst l. nia. }
    assert (l * 2 ^ h = l' * 2 ^ (k + h)) as E by (rewrite Nat.pow_add_r; nia).
    rewrite E in *. clear E H4. generalize dependent (k + h). clear k h l Hl Hll.
    intros h H1 H2 H3 H5 Hpar. pose proof (pow2_pos h) as Hph.
    assert (0 < l') as Hl' by nia.
    assert (Hh : h <= log).
    { apply Nat.lt_succ_r. apply (Nat.pow_lt_mono_r_iff 2); [lia|]. rewrite Nat.pow_succ_r'. nia. }
    assert (Hn : node h l') by (split; [exact Hh|lia]).
    assert (Ha : forall j x, node j x -> anc h l' j x -> on_path l0 j x).
    { intros j x Hx [Hj ->]. split; [lia|]. symmetry. apply under.
      destruct (anc_range h l' j Hj) as [A1 A2].
      apply Nat.odd_spec in Hodd as [q ->]. replace ((2 * q + 1) / 2) with q in * by (apply (Nat.div_unique _ _ _ 1); lia).
      replace (2 * q + 1 - 1) with (2 * q) in * by lia. nia. }
    rewrite (R_read s A all _ h l' HR Hn I Ha). cbn [mbind res_bind].
    pose proof (node_hi _ _ Hn) as Hhi.
    destruct (g (op (Pr A l0 (l' * 2 ^ h)) (Pr A (l' * 2 ^ h) ((l' + 1) * 2 ^ h)))) eqn:Hg; cbn [negb].
    - rewrite <- Pr_app in Hg |- * by nia.
      destruct (Nat.eqb_spec (lowbit (l' + 1)) (l' + 1)) as [Hp|Hnp].
      + eexists. split; [reflexivity|]. cbn. exists (on_path l0). split; [exact HR|]. left. split; [reflexivity|].
        destruct (lowbit_eq_pow2 (l' + 1)) as [j Hj]; [lia|exact Hp|].
        assert ((l' + 1) * 2 ^ h = 2 * size) as E; [|rewrite <- E; exact Hg].
        assert (size < (l' + 1) * 2 ^ h) as Hgt by nia.
        rewrite Hj in *. rewrite <- Nat.pow_add_r in *.
        assert (log < j + h) as G1 by (apply (Nat.pow_lt_mono_r_iff 2); [lia|exact Hgt]).
        assert (j + h <= Datatypes.S log) as G2 by (apply (Nat.pow_le_mono_r_iff 2); [lia|]; rewrite Nat.pow_succ_r'; lia).
        replace (j + h) with (Datatypes.S log) by lia. rewrite Nat.pow_succ_r'. reflexivity.
      + eexists. split; [reflexivity|]. cbn.
        assert ((l' + 1) * 2 ^ h <> 2 * size) as Hne2.
        { intros E. apply Hnp. rewrite (size_split h Hh), Nat.mul_assoc in E.
          apply Nat.mul_cancel_r in E; [|lia]. rewrite E, <- Nat.pow_succ_r'. apply lowbit_pow2. }
        exists (2 * size - (l' + 1) * 2 ^ h). split; [nia|]. split; [reflexivity|].
        exists h. split; [nia|]. split; [nia|]. split; [nia|].
        split; [right; split; [rewrite Nat.add_1_r, Nat.even_succ; exact Hodd|]|].
        { replace (l' + 1 - 2) with (l' - 1) by lia. exact Hpar. }
        split; [reflexivity|exact Hg].
    - destruct (descend_right_ok s A _ g l' h _ l0 HR Hn Ha H3 eq_refl H5 Hg) as (s' & r & C' & -> & HR' & Hpost).
      cbn [mbind res_bind]. eexists. split; [reflexivity|]. cbn. exists C'. split; [exact HR'|]. right. exact Hpost.
  Qed.

  Lemma descend_left_ok s A C g r h sm r0 : R s A all C -> node h r ->
    (forall j x, node j x -> anc h r j x -> C j x) -> (r + 1) * 2 ^ h <= r0 ->
    sm = Pr A ((r + 1) * 2 ^ h) r0 -> g sm = true -> g (op (Pr A (r * 2 ^ h) ((r + 1) * 2 ^ h)) sm) = false ->
    exists s' l C', lt_descend_left op idm mapping comp size g s r sm = Ok (s', l) /\ R s' A all C' /\
      0 < l /\ size + l <= r0 /\ g (Pr A (size + l) r0) = true /\ g (Pr A (size + l - 1) r0) = false.
  Proof.
    intros HR Hn Ha Hr0 Hsm Ht Hf. unfold lt_descend_left.
    match goal with |- context [rloop _ ?st _] => set (step := st) end.
    destruct (rloop_inv_idx
      (fun h '(s, r, sm) => exists C, R s A all C /\ node h r /\ (forall j x, node j x -> anc h r j x -> C j x) /\
         (r + 1) * 2 ^ h <= r0 /\ sm = Pr A ((r + 1) * 2 ^ h) r0 /\ g sm = true /\
         g (op (Pr A (r * 2 ^ h) ((r + 1) * 2 ^ h)) sm) = false)
      (fun '(s, r) => exists C, R s A all C /\ leaf r /\ r + 1 <= r0 /\ g (Pr A (r + 1) r0) = true /\ g (Pr A r r0) = false)
      step) with (fuel := size + 1) (m := h) (s := (s, r, sm)) as ([s' r'] & E & C' & HR' & Hl' & H1 & H2 & H3).
    - clear s C r h sm HR Hn Ha Hr0 Hsm Ht Hf.
      intros h [[s r] sm] (C & HR & Hn & Ha & Hr0 & -> & Ht & Hf). unfold step.
      destruct h as [|h].
      + assert (~ r < size) by (intros H; apply (node_inner _ _ Hn) in H; lia).
        destruct (Nat.ltb_spec r size); [lia|]. eexists. split; [reflexivity|]. cbn.
        rewrite Nat.pow_0_r, !Nat.mul_1_r in *. exists C. split; [exact HR|].
        pose proof (node_lt _ _ Hn). split; [unfold leaf; lia|]. split; [exact Hr0|]. split; [exact Ht|].
        rewrite (Pr_app A r (r + 1)) by lia. exact Hf.
      + assert (r < size) as Hls by (apply (node_inner _ _ Hn); lia).
        destruct (Nat.ltb_spec r size); [|lia].
        destruct (R_push_down s A C h r HR Hn Ha) as (s1 & C1 & -> & HR1 & Ha1). cbn [mbind res_bind].
        rewrite (R_read s1 A all C1 h (2 * r + 1) HR1 (node_right _ _ Hn) I (Ha1 _ (or_intror eq_refl))). cbn [mbind res_bind].
        pose proof (pow2_pos h) as Hph. rewrite Nat.pow_succ_r' in *.
        replace (r * (2 * 2 ^ h)) with (2 * r * 2 ^ h) in * by lia.
        replace ((r + 1) * (2 * 2 ^ h)) with ((2 * r + 1 + 1) * 2 ^ h) in * by lia.
        rewrite <- Pr_app by nia.
        destruct (g (Pr A ((2 * r + 1) * 2 ^ h) r0)) eqn:Hg.
        * rewrite nsub_ok by lia. cbn [mbind res_bind]. replace (2 * r + 1 - 1) with (2 * r) by lia.
          eexists; split; [reflexivity|]; cbn; exists h; split; [lia|]; exists C1; split; [exact HR1|].
          split; [apply node_left; exact Hn|]. split; [apply Ha1; auto|]. split; [nia|]. split; [reflexivity|].
          split; [exact Hg|]. rewrite <- Pr_app by nia. rewrite <- Hf. rewrite <- Pr_app by nia. reflexivity.
        * eexists; split; [reflexivity|]; cbn; exists h; split; [lia|]; exists C1; split; [exact HR1|].
          split; [apply node_right; exact Hn|]. split; [apply Ha1; auto|]. split; [nia|]. split; [reflexivity|].
          split; [exact Ht|]. rewrite <- Pr_app by nia. exact Hg.
    - exists C. auto 10.
    - apply height_lt. apply Hn.
    - rewrite E. cbn [mbind res_bind]. unfold leaf in Hl'. rewrite nsub_ok by lia. cbn [mbind res_bind].
      exists s', (r' + 1 - size), C'. split; [reflexivity|]. split; [exact HR'|].
      replace (size + (r' + 1 - size)) with (r' + 1) by lia. replace (r' + 1 - 1) with r' by lia.
      split; [lia|]. auto.
  Qed.

  Lemma min_left_ok s A g r0 : R s A all (on_path (r0 - 1)) -> leaf (r0 - 1) -> g e = true ->
    exists s' l C', rloop (2 * size + 1) (lt_min_left_step op idm mapping comp size g) (s, r0, e) = Ok (s', l) /\ R s' A all C' /\
      ((l = 0 /\ g (Pr A size r0) = true) \/
       (0 < l /\ size + l <= r0 /\ g (Pr A (size + l) r0) = true /\ g (Pr A (size + l - 1) r0) = false)).
  Proof.
    intros HR Hl0 Hge. unfold leaf in Hl0. pose proof (pow2_pos log) as Hsz.
    destruct (rloop_inv_idx
      (fun m '(s', r, sm) => s' = s /\ exists h, m + size = r * 2 ^ h /\ 0 < m /\ h <= log /\
          r * 2 ^ h <= r0 /\ (r0 = r * 2 ^ h \/ (Nat.even r = true /\ r0 <= (r + 2) * 2 ^ h)) /\
          sm = Pr A (r * 2 ^ h) r0 /\ g sm = true)
      (fun '(s', l) => exists C', R s' A all C' /\
        ((l = 0 /\ g (Pr A size r0) = true) \/
         (0 < l /\ size + l <= r0 /\ g (Pr A (size + l) r0) = true /\ g (Pr A (size + l - 1) r0) = false)))
      (lt_min_left_step op idm mapping comp size g)) with (fuel := 2 * size + 1) (m := r0 - size) (s := (s, r0, e))
      as ([s' r] & E & C' & H); [|split; [reflexivity|]; exists 0; rewrite Nat.pow_0_r, Nat.mul_1_r|lia|].
    2:{ split; [lia|]. split; [lia|]. split; [lia|]. split; [lia|]. split; [auto|]. rewrite Pr_nil by lia. auto. }
    2:{ exists s', r, C'. auto. }
    intros m [[s' r] sm] (-> & h & H1 & H2 & Hh & H3 & H4 & -> & H5). unfold lt_min_left_step.
    assert (1 < r) as Hr.
    { assert (2 ^ h <= size) by (apply Nat.pow_le_mono_r; lia). nia. }
    rewrite nsub_ok by lia. cbn [mbind res_bind].
    destruct (strip_odd_spec (r - 1) ltac:(lia)) as (k & r' & -> & Hrr & Hr' & Hev). cbn [mbind res_bind].
    replace (r - 1 + 1) with r in Hrr by lia.
    assert (Hpar : r' = 1 \/ r0 <= (r' + 2) * 2 ^ (k + h)).
    { rewrite Nat.pow_add_r. destruct H4 as [->|[Hrev H4]]; [right; subst r; nia|].
      destruct k as [|k].
      { rewrite Nat.pow_0_r, Nat.mul_1_r in Hrr. subst r. rewrite Nat.add_1_r, Nat.even_succ in Hrev.
        destruct Hev as [->|Hev]; [left; reflexivity|]. rewrite <- Nat.negb_even, Hev in Hrev. discriminate. }
      right. rewrite Nat.pow_succ_r' in *. pose proof (pow2_pos k).
      etransitivity; [exact H4|].
      rewrite Nat.mul_assoc. apply Nat.mul_le_mono_r. subst r. nia. }
    assert (r * 2 ^ h = (r' + 1) * 2 ^ (k + h)) as E by (rewrite Nat.pow_add_r; nia).
    rewrite E in *. clear E H4. generalize dependent (k + h). clear k h Hh r Hr Hrr.
    intros h H1 H3 H5 Hpar. pose proof (pow2_pos h) as Hph.
    assert (h <= log) as Hh.
    { apply (Nat.pow_le_mono_r_iff 2); [lia|]. nia. }
    assert (size <= r' * 2 ^ h) as Hlo.
    { pose proof (size_split h Hh) as Hq.
      assert (2 ^ (log - h) < r' + 1) by (apply (Nat.mul_lt_mono_pos_r (2 ^ h)); lia).
      rewrite Hq. apply Nat.mul_le_mono_r. lia. }
    assert (Hn : node h r') by (split; [exact Hh|]; split; [exact Hlo|nia]).
    assert (Ha : forall j x, node j x -> anc h r' j x -> on_path (r0 - 1) j x).
    { intros j x Hx [Hj ->]. split; [lia|]. symmetry. apply under.
      destruct (anc_range h r' j Hj) as [A1 A2].
      destruct Hev as [->|Hev].
      - exfalso. destruct Hx as (Hjl & Hx & _). rewrite Nat.div_small in Hx; [lia|].
        apply Nat.pow_gt_1; lia.
      - destruct Hpar as [->|Hpar]; [discriminate Hev|].
        apply Nat.even_spec in Hev as [q ->]. replace (2 * q / 2) with q in * by (symmetry; rewrite Nat.mul_comm; apply Nat.div_mul; lia).
        nia. }
    rewrite (R_read s A all _ h r' HR Hn I Ha). cbn [mbind res_bind].
    destruct (g (op (Pr A (r' * 2 ^ h) ((r' + 1) * 2 ^ h)) (Pr A ((r' + 1) * 2 ^ h) r0))) eqn:Hg; cbn [negb].
    - rewrite <- Pr_app in Hg |- * by nia.
      destruct (Nat.eqb_spec (lowbit r') r') as [Hp|Hnp].
      + eexists. split; [reflexivity|]. cbn. eexists. split; [exact HR|]. left. split; [reflexivity|].
        destruct (lowbit_eq_pow2 r') as [j Hj]; [lia|exact Hp|].
        assert (r' * 2 ^ h = size) as E; [|rewrite <- E; exact Hg].
        assert (r' * 2 ^ h < 2 * size) as Hgt by nia.
        rewrite Hj in *. rewrite <- Nat.pow_add_r in *.
        assert (log <= j + h) as G1 by (apply (Nat.pow_le_mono_r_iff 2); [lia|lia]).
        assert (j + h < Datatypes.S log) as G2 by (apply (Nat.pow_lt_mono_r_iff 2); [lia|]; rewrite Nat.pow_succ_r'; lia).
        f_equal. lia.
      + eexists. split; [reflexivity|]. cbn.
        assert (r' * 2 ^ h <> size) as Hne2.
        { intros E. apply Hnp. rewrite (size_split h Hh) in E.
          apply Nat.mul_cancel_r in E; [|lia]. rewrite E. apply lowbit_pow2. }
        exists (r' * 2 ^ h - size). split; [nia|]. split; [reflexivity|].
        exists h. split; [nia|]. split; [nia|]. split; [lia|]. split; [nia|].
        split; [right|].
        { destruct Hev as [->|Hev].
          - exfalso. apply Hne2. assert (h = log) as ->; [|lia].
            apply Nat.le_antisymm; [exact Hh|]. apply (Nat.pow_le_mono_r_iff 2); lia.
          - split; [exact Hev|]. destruct Hpar as [->|Hpar]; [discriminate Hev|exact Hpar]. }
        split; [reflexivity|exact Hg].
    - destruct (descend_left_ok s A _ g r' h _ r0 HR Hn Ha H3 eq_refl H5 Hg) as (s' & l & C' & -> & HR' & Hpost).
      cbn [mbind res_bind]. eexists. split; [reflexivity|]. cbn. exists C'. split; [exact HR'|]. right. exact Hpost.
  Qed.
End Proof.
