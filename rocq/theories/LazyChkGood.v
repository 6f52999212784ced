(** The lazy segment tree over functions that may panic: when they do not.  Next to the invariant of LazyProof.v the tree keeps a
    word of pending maps for every node; from the root to a leaf the words join to a part of the maps applied to that leaf. *)
From Verif Require Import Prelude UtilModel UtilProof ArraySpec SegtreeModel SegtreeProof SegtreeChkModel LazySpec LazyModel LazyProof
  PartialOps LazyChkModel.

Section Good.
  Context {S F : Type} (e : S) (op : S -> S -> S) (idm : F) (mapping : F -> S -> S) (comp : F -> F -> F).
  Context (L : monoid_laws e op) (ML : map_laws op idm mapping comp) (LC : monoid_laws idm comp).
  Context (goodS : S -> Prop) (goodF : F -> Prop).
  Context (opc : S -> S -> res S) (mapc : F -> S -> res S) (compc : F -> F -> res F).
  Context (AO : agrees goodS op opc).
  Context (AM : forall f x, goodF f -> goodS x -> goodS (mapping f x) -> mapc f x = Ok (mapping f x)).
  Context (AC : forall f g, goodF f -> goodF g -> goodF (comp f g) -> compc f g = Ok (comp f g)).
  Context (log : nat).
  Local Notation size := (2 ^ log).
  Local Notation tree := (tree S F).
  Implicit Types (s : tree) (A : nat -> S) (H M : nat -> list F) (h k j x p : nat).

  Local Notation node := (node log).
  Local Notation leaf := (leaf log).
  Local Notation node_uniq := (node_uniq log).
  Local Notation node_lt := (node_lt log).
  Local Notation node_hi := (node_hi log).
  Local Notation node_left := (node_left log).
  Local Notation node_right := (node_right log).
  Local Notation node_inner := (node_inner log).
  Local Notation leaf_node := (leaf_node log).
  Local Notation leaf_node0 := (leaf_node0 log).
  Local Notation node_leaf := (node_leaf log).
  Local Notation straddles_node := (straddles_node log).
  Local Notation range_node := (range_node log).
  Local Notation bnd_not_left := (bnd_not_left log).
  Local Notation size_split := (size_split log).
  Local Notation height_lt := (height_lt log).
  Local Notation D := (D e).
  Local Notation Lz := (Lz idm).
  Local Notation Pr := (Pr e op).
  Local Notation Pr_app := (Pr_app e op L).
  Local Notation Pr_nil := (Pr_nil e op).
  Local Notation Pr_one := (Pr_one e op L).
  Local Notation Pr_ext := (Pr_ext e op).
  Local Notation R := (R e op idm mapping log).
  Local Notation W_ := (mprod idm comp).

  (** The pending words above leaf p up to height j, the newest maps first. *)
  Fixpoint pw (W : nat -> list F) p j : list F :=
    match j with
    | O => []
    | Datatypes.S j' => W (p / 2 ^ j) ++ pw W p j'
    end.

  Definition GA A : Prop := forall x y, size <= x <= y -> y <= 2 * size -> goodS (Pr A x y).
  Definition GH H : Prop := forall p w, leaf p -> w `sublist_of` H p -> goodF (W_ w).

  Definition T s H (C : nat -> nat -> Prop) : Prop := exists W : nat -> list F,
    (forall k, Lz s k = W_ (W k)) /\ (forall j k, 0 < j -> node j k -> C j k -> W k = []) /\
    (forall p, leaf p -> pw W p log `sublist_of` H p).

  Record RT s A H (G C : nat -> nat -> Prop) : Prop := {
    RT_R : R s A G C;
    RT_T : T s H C;
    RT_D : forall k, k < 2 * size -> goodS (D s k) }.

  Lemma RT_mono s A A' H H' (G G' C C' : nat -> nat -> Prop) :
    RT s A H G C -> (forall p, leaf p -> A' p = A p) -> (forall p, leaf p -> H p `sublist_of` H' p) ->
    (forall h k, node h k -> G' h k -> G h k) ->
    (forall h k, 0 < h -> node h k -> C' h k -> C h k) -> RT s A' H' G' C'.
  Proof.
    intros [HR (W & HW & HC & HP) HD] HA HH HG HC'. split.
    - eapply R_mono; eassumption.
    - exists W. split; [exact HW|]. split.
      + intros j k Hj Hk Hc. apply (HC j k Hj Hk). apply HC'; assumption.
      + intros p Hp. etransitivity; [apply HP; exact Hp|apply HH; exact Hp].
    - exact HD.
  Qed.

  Lemma GA_ext A A' : (forall p, leaf p -> A' p = A p) -> GA A -> GA A'.
  Proof.
    intros E G x y Hx Hy. rewrite (Pr_ext A' A); [apply G; assumption|]. intros p Hp. apply E. unfold LazyProof.leaf. lia.
  Qed.

  (** ** Words on a path *)
  Lemma pw_ext W W' p j : (forall i, 0 < i <= j -> W' (p / 2 ^ i) = W (p / 2 ^ i)) -> pw W' p j = pw W p j.
  Proof.
    induction j as [|j IH]; intros E; [reflexivity|]. cbn [pw]. rewrite E by lia. f_equal. apply IH. intros i Hi. apply E. lia.
  Qed.
  Lemma pw_clean W p i j : i <= j -> (forall m, i < m <= j -> W (p / 2 ^ m) = []) -> pw W p j = pw W p i.
  Proof.
    intros Hi. induction Hi as [|j Hi IH]; intros E; [reflexivity|]. cbn [pw]. rewrite E by lia. cbn [app]. apply IH. intros m Hm. apply E. lia.
  Qed.
  Lemma pw_below W p i j : i <= j -> pw W p i `sublist_of` pw W p j.
  Proof.
    intros Hi. induction Hi as [|j Hi IH]; [reflexivity|]. cbn [pw]. etransitivity; [exact IH|]. apply sublist_inserts_l. reflexivity.
  Qed.
  Lemma pw_up W W' p i j : i <= j -> pw W' p i `sublist_of` pw W p i -> (forall m, i < m <= j -> W' (p / 2 ^ m) = W (p / 2 ^ m)) ->
    pw W' p j `sublist_of` pw W p j.
  Proof.
    intros Hi H0. induction Hi as [|j Hi IH]; intros E; [exact H0|]. cbn [pw]. rewrite E by lia.
    apply sublist_app; [reflexivity|]. apply IH. intros m Hm. apply E. lia.
  Qed.

  Lemma node_has_leaf h k : node h k -> leaf (k * 2 ^ h) /\ (k * 2 ^ h) / 2 ^ h = k.
  Proof.
    intros Hk. pose proof (pow2_pos h). assert ((k * 2 ^ h) / 2 ^ h = k) as E by (apply Nat.div_mul; lia).
    split; [|exact E]. apply (node_leaf h k); assumption.
  Qed.

  Lemma tag_good s A H G C h k : RT s A H G C -> GH H -> 0 < h -> node h k -> goodF (Lz s k).
  Proof.
    intros HR HH Hh Hk. destruct (RT_T _ _ _ _ _ HR) as (W & HW & _ & HP). rewrite HW.
    destruct (node_has_leaf h k Hk) as [Hl E]. apply (HH (k * 2 ^ h)); [exact Hl|].
    etransitivity; [|apply HP; exact Hl]. etransitivity; [|apply (pw_below W _ h log); apply Hk].
    destruct h as [|h]; [lia|]. cbn [pw]. rewrite E. apply sublist_inserts_r. reflexivity.
  Qed.

  (** ** all_apply *)
  Lemma all_apply_same s k f : length s.1 = 2 * size -> length s.2 = size -> k < 2 * size ->
    goodF f -> goodS (D s k) -> goodS (mapping f (D s k)) -> (k < size -> goodF (Lz s k) /\ goodF (comp f (Lz s k))) ->
    ltc_all_apply mapc compc size s k f = lt_all_apply mapping comp size s k f.
  Proof.
    destruct s as [d lz]. cbn [fst snd]. intros H1 H2 Hk Hf HD HM HL. unfold ltc_all_apply, lt_all_apply.
    destruct (vget_lt d k) as (v & -> & Ev); [lia|]. cbn [mbind res_bind].
    unfold LazyProof.D in HD, HM. cbn [fst] in HD, HM. rewrite Ev in HD, HM. cbn [default] in HD, HM.
    rewrite AM by assumption. cbn [mbind res_bind]. destruct (vset d k (mapping f v)) as [d'| |]; try reflexivity. cbn [mbind res_bind].
    destruct (Nat.ltb_spec k size) as [Hs|Hs]; [|reflexivity].
    destruct (vget_lt lz k) as (g & -> & Eg); [lia|]. cbn [mbind res_bind].
    unfold LazyProof.Lz in HL. cbn [snd] in HL. rewrite Eg in HL. cbn [default] in HL. destruct (HL Hs) as [HL1 HL2].
    rewrite AC by assumption. reflexivity.
  Qed.

  Lemma RT_all_apply s A H G C h k f : RT s A H G C -> node h k -> G h k ->
    (forall j x, node j x -> anc h k j x -> C j x) ->
    let A' := fun p => if decide (p / 2 ^ h = k) then mapping f (A p) else A p in
    let H' := fun p => if decide (p / 2 ^ h = k) then f :: H p else H p in
    goodS (Pr A' (k * 2 ^ h) ((k + 1) * 2 ^ h)) -> GH H' ->
    exists s', ltc_all_apply mapc compc size s k f = Ok s' /\
      RT s' A' H' (fun j x => G j x /\ ~ anc h k j x) (fun j x => C j x /\ x <> k).
  Proof.
    intros HR Hk HG Hanc A' H' GA' GH'. pose proof (node_lt h k Hk) as Hkl. pose proof (RT_R _ _ _ _ _ HR) as HR0.
    pose proof (R_d _ _ _ _ _ _ _ _ _ HR0) as L1. pose proof (R_lz _ _ _ _ _ _ _ _ _ HR0) as L2.
    destruct (RT_T _ _ _ _ _ HR) as (W & HW & HC & HP).
    destruct (node_has_leaf h k Hk) as [Hl El].
    assert (Hhl : h <= log) by apply Hk.
    assert (Hpw : forall p, p / 2 ^ h = k -> pw W p h `sublist_of` H p).
    { intros p Hp. pose proof (node_leaf h k p Hk Hp) as Hpl. rewrite <- (pw_clean W p h log Hhl); [apply HP; exact Hpl|].
      intros m Hm. pose proof (leaf_node m p Hpl ltac:(lia)) as Hn. apply (HC m _ ltac:(lia) Hn). apply Hanc; [exact Hn|].
      split; [lia|]. rewrite <- Hp. apply div_up. lia. }
    assert (Hmap : mapping f (D s k) = Pr A' (k * 2 ^ h) ((k + 1) * 2 ^ h)).
    { pose proof (R_read e op idm mapping log s A G C h k HR0 Hk HG Hanc) as Er.
      rewrite (D_get e op idm mapping log s A G C k HR0) in Er by lia. injection Er as ->.
      pose proof (pow2_pos h). rewrite (Pr_map e op idm mapping comp L ML) by nia. apply Pr_ext. intros p Hp. unfold A'.
      rewrite decide_True by (apply under; exact Hp). reflexivity. }
    rewrite all_apply_same; [|assumption|assumption|lia| | | |].
    2:{ rewrite <- (ml_idr _ _ LC f). apply (GH' (k * 2 ^ h) [f] Hl). unfold H'. rewrite decide_True by exact El.
        apply sublist_skip, sublist_nil_l. }
    2:{ apply (RT_D _ _ _ _ _ HR). lia. }
    2:{ rewrite Hmap. exact GA'. }
    2:{ intros Hks. assert (0 < h) as Hh0 by (apply (node_inner h k Hk); exact Hks).
        assert (Hwk : W k `sublist_of` H (k * 2 ^ h)).
        { etransitivity; [|apply (Hpw _ El)]. destruct h as [|h']; [lia|]. cbn [pw]. rewrite El. apply sublist_inserts_r. reflexivity. }
        rewrite HW. split.
        - apply (GH' (k * 2 ^ h) _ Hl). unfold H'. rewrite decide_True by exact El. apply sublist_cons. exact Hwk.
        - change (goodF (W_ (f :: W k))). apply (GH' (k * 2 ^ h) _ Hl). unfold H'. rewrite decide_True by exact El.
          apply sublist_skip. exact Hwk. }
    destruct (R_all_apply e op idm mapping comp L ML log s A G C h k f HR0 Hk Hanc) as (s' & E & HR').
    destruct (all_apply_fun e idm mapping comp log s k f L1 L2) as (s2 & E2 & _ & _ & HD2 & HL2); [lia|].
    assert (s2 = s') as -> by congruence. exists s'. split; [exact E|]. split; [exact HR'| |].
    - exists (fun x => if decide (x = k /\ k < size) then f :: W k else W x). split; [|split].
      + intros x. rewrite HL2. destruct (decide _); [|apply HW]. rewrite HW. reflexivity.
      + intros j x Hj Hx [Hc Hne]. rewrite decide_False by tauto. apply (HC j x Hj Hx Hc).
      + intros p Hp. unfold H'. destruct (decide (p / 2 ^ h = k)) as [Hu|Hu].
        * etransitivity; [|apply sublist_skip, (Hpw p Hu)].
          rewrite (pw_clean _ p h log Hhl).
          -- destruct h as [|h']; [cbn; apply sublist_nil_l|]. cbn [pw]. rewrite Hu.
             assert (k < size) by (apply (node_inner _ _ Hk); lia). rewrite decide_True by auto. cbn [app]. apply sublist_skip.
             erewrite pw_ext; [reflexivity|]. intros i Hi. cbn beta. rewrite decide_False; [reflexivity|]. intros [E' _].
             pose proof (leaf_node i p Hp ltac:(lia)) as Hn. rewrite E' in Hn. pose proof (node_uniq _ _ _ Hn Hk). lia.
          -- intros m Hm. pose proof (leaf_node m p Hp ltac:(lia)) as Hn. rewrite decide_False.
             ++ apply (HC m _ ltac:(lia) Hn). apply Hanc; [exact Hn|]. split; [lia|]. rewrite <- Hu. apply div_up. lia.
             ++ intros [E' _]. rewrite E' in Hn. pose proof (node_uniq _ _ _ Hn Hk). lia.
        * etransitivity; [|apply HP; exact Hp]. erewrite pw_ext; [reflexivity|]. intros i Hi. cbn beta. rewrite decide_False; [reflexivity|].
          intros [E' _]. pose proof (leaf_node i p Hp ltac:(lia)) as Hn. rewrite E' in Hn.
          pose proof (node_uniq _ _ _ Hn Hk). subst i. congruence.
    - intros x Hx. rewrite HD2. destruct (decide (x = k)); [rewrite Hmap; exact GA'|apply (RT_D _ _ _ _ _ HR); exact Hx].
  Qed.

  (** ** push *)
  Lemma RT_push s A H C h k : RT s A H all C -> node (Datatypes.S h) k ->
    (forall j x, node j x -> anc (Datatypes.S h) k j x -> C j x) -> GA A -> GH H ->
    exists s', ltc_push idm mapc compc size s k = Ok s' /\
      RT s' A H all (fun j x => (j = Datatypes.S h /\ x = k) \/ (C j x /\ x <> 2 * k /\ x <> 2 * k + 1)).
  Proof.
    intros HR Hk Hanc HA HH. pose proof (node_lt _ _ Hk) as Hkl. pose proof (RT_R _ _ _ _ _ HR) as HR0.
    pose proof (R_d _ _ _ _ _ _ _ _ _ HR0) as L1. pose proof (R_lz _ _ _ _ _ _ _ _ _ HR0) as L2.
    assert (k < size) as Hks by (apply (node_inner _ _ Hk); lia).
    pose proof (node_left _ _ Hk) as Hkl2. pose proof (node_right _ _ Hk) as Hkr2.
    assert (Hhl : Datatypes.S h <= log) by apply Hk.
    destruct (RT_T _ _ _ _ _ HR) as (W & HW & HC & HP).
    destruct (R_push e op idm mapping comp L ML log s A C h k HR0 Hk) as (s' & E & HR').
    destruct (push_fun e idm mapping comp log s k L1 L2) as (s2 & E2 & _ & _ & HD2 & HL2); [lia|].
    assert (s2 = s') as -> by congruence.
    (* the new values of the children *)
    assert (Hchild : forall c, c = 2 * k \/ c = 2 * k + 1 -> goodS (mapping (Lz s k) (D s c))).
    { intros c Hc. assert (Hn : node h c) by (destruct Hc as [-> | ->]; assumption).
      assert (Er : vget s'.1 c = Ok (Pr A (c * 2 ^ h) ((c + 1) * 2 ^ h))).
      { apply (R_read e op idm mapping log s' A all _ h c HR' Hn I). intros j x Hx [Hj ->].
        assert (Hck : c / 2 = k).
        { symmetry. destruct Hc as [->| ->]; [apply (Nat.div_unique _ _ _ 0)|apply (Nat.div_unique _ _ _ 1)]; lia. }
        destruct (decide (j = Datatypes.S h)) as [->|Hjne].
        - left. split; [reflexivity|]. replace (Datatypes.S h - h) with 1 by lia. exact Hck.
        - right. assert (Hx' : c / 2 ^ (j - h) = k / 2 ^ (j - Datatypes.S h)).
          { rewrite (div_up 1 (j - h)) by lia. change (2 ^ 1) with 2. rewrite Hck. f_equal. f_equal. lia. }
          rewrite Hx' in *. split; [apply Hanc; [exact Hx|split; [lia|reflexivity]]|].
          split; intros E'; rewrite E' in Hx; [pose proof (node_uniq _ _ _ Hx Hkl2)|pose proof (node_uniq _ _ _ Hx Hkr2)]; lia. }
      assert (c < 2 * size) as Hc2 by (apply (node_lt h c Hn)).
      rewrite (D_get e op idm mapping log s' A all _ c HR') in Er by exact Hc2. injection Er as Er.
      rewrite HD2, decide_True in Er by exact Hc. rewrite Er. apply HA; [|apply (node_hi h c Hn)].
      destruct Hn as (_ & Hn & _). nia. }
    assert (Hcomp : forall c, c = 2 * k \/ c = 2 * k + 1 -> c < size -> goodF (Lz s c) /\ goodF (comp (Lz s k) (Lz s c))).
    { intros c Hc Hcs. assert (Hn : node h c) by (destruct Hc as [-> | ->]; assumption).
      assert (0 < h) as Hh0 by (apply (node_inner h c Hn); exact Hcs). split; [apply (tag_good s A H all C h c); assumption|].
      rewrite !HW, <- (mprod_app _ _ LC). destruct (node_has_leaf h c Hn) as [Hl El].
      apply (HH (c * 2 ^ h) _ Hl). etransitivity; [|apply HP; exact Hl]. etransitivity; [|apply (pw_below W _ (Datatypes.S h) log Hhl)].
      destruct h as [|h']; [lia|]. remember (Datatypes.S h') as hh. cbn [pw].
      assert (Ek : c * 2 ^ hh / 2 ^ Datatypes.S hh = k) by (apply under_child; rewrite El; exact Hc). rewrite Ek.
      apply sublist_app; [reflexivity|]. subst hh. cbn [pw]. rewrite El. apply sublist_inserts_r. reflexivity. }
    pose proof (tag_good s A H all C (Datatypes.S h) k HR HH ltac:(lia) Hk) as Hf.
    exists s'. split.
    { rewrite <- E. unfold ltc_push, lt_push.
      rewrite (Lz_get e op idm mapping log s A all C k HR0 Hks). cbn [mbind res_bind].
      rewrite all_apply_same; [|assumption|assumption|lia|exact Hf|apply (RT_D _ _ _ _ _ HR); lia|apply Hchild; auto|apply Hcomp; auto].
      destruct (all_apply_fun e idm mapping comp log s (2 * k) (Lz s k) L1 L2) as (s1 & -> & L3 & L4 & HD1 & HL1); [lia|]. cbn [mbind res_bind].
      assert (Lz s1 k = Lz s k) as El1 by (rewrite HL1, decide_False by lia; reflexivity).
      assert (vget s1.2 k = Ok (Lz s k)) as ->.
      { destruct (vget_lt s1.2 k) as (f1 & -> & Ef1); [lia|]. f_equal. rewrite <- El1. unfold LazyProof.Lz. rewrite Ef1. reflexivity. }
      cbn [mbind res_bind].
      rewrite all_apply_same; [reflexivity|assumption|assumption|lia|exact Hf| | |].
      - rewrite HD1, decide_False by lia. apply (RT_D _ _ _ _ _ HR). lia.
      - rewrite HD1, decide_False by lia. apply Hchild. auto.
      - rewrite HL1, decide_False by lia. apply Hcomp. auto. }
    split; [exact HR'| |].
    - exists (fun x => if decide (x = k) then [] else if decide ((x = 2 * k \/ x = 2 * k + 1) /\ x < size) then W k ++ W x else W x).
      split; [|split].
      + intros x. rewrite HL2. destruct (decide (x = k)); [reflexivity|]. destruct (decide _); [|apply HW].
        rewrite !HW, <- (mprod_app _ _ LC). reflexivity.
      + intros j x Hj Hx [[-> ->]|(Hc & X1 & X2)]; [rewrite decide_True by reflexivity; reflexivity|].
        destruct (decide (x = k)); [reflexivity|]. rewrite decide_False by lia. apply (HC j x Hj Hx Hc).
      + intros p Hp. etransitivity; [|apply HP; exact Hp].
        match goal with |- pw ?X _ _ `sublist_of` _ => set (W' := X) end.
        assert (Heq : forall x, x <> k -> x <> 2 * k -> x <> 2 * k + 1 -> W' x = W x).
        { intros x ? ? ?. unfold W'. rewrite decide_False, decide_False by lia. reflexivity. }
        assert (Hne : forall i, i <= log -> i <> h -> i <> Datatypes.S h -> W' (p / 2 ^ i) = W (p / 2 ^ i)).
        { intros i Hi J1 J2. pose proof (leaf_node i p Hp Hi) as Hn. apply Heq; intros E'; rewrite E' in Hn.
          - apply J2. apply (node_uniq _ _ k); assumption.
          - apply J1. apply (node_uniq _ _ (2 * k)); assumption.
          - apply J1. apply (node_uniq _ _ (2 * k + 1)); assumption. }
        destruct (decide (p / 2 ^ Datatypes.S h = k)) as [Hu|Hu].
        * pose proof (proj1 (under_child h k p) Hu) as Hc.
          apply (pw_up W W' p (Datatypes.S h) log Hhl); [|intros m Hm; apply Hne; lia].
          destruct h as [|h'].
          -- cbn [pw]. rewrite Hu. unfold W' at 1. rewrite decide_True by reflexivity. apply sublist_nil_l.
          -- remember (Datatypes.S h') as hh. cbn [pw]. rewrite Hu. unfold W' at 1. rewrite decide_True by reflexivity. cbn [app]. subst hh. cbn [pw].
             assert (p / 2 ^ Datatypes.S h' < size) as Hcs by (apply (node_inner (Datatypes.S h')); [apply leaf_node; [exact Hp|lia]|lia]).
             unfold W' at 1. rewrite decide_False by lia. rewrite decide_True by (split; [exact Hc|exact Hcs]).
             rewrite app_assoc. apply sublist_app; [reflexivity|]. erewrite pw_ext; [reflexivity|]. intros i Hi. apply Hne; lia.
        * erewrite pw_ext; [reflexivity|]. intros i Hi.
          destruct (decide (i = Datatypes.S h)) as [->|].
          { apply Heq; [exact Hu| |]; intros E'; pose proof (leaf_node (Datatypes.S h) p Hp Hhl) as Hn; rewrite E' in Hn;
              [pose proof (node_uniq _ _ _ Hn Hkl2)|pose proof (node_uniq _ _ _ Hn Hkr2)]; lia. }
          destruct (decide (i = h)) as [->|]; [|apply Hne; lia].
          apply Heq.
          -- intros E'. pose proof (leaf_node h p Hp ltac:(lia)) as Hn. rewrite E' in Hn. pose proof (node_uniq _ _ _ Hn Hk). lia.
          -- intros E'. apply Hu, under_child. auto.
          -- intros E'. apply Hu, under_child. auto.
    - intros x Hx. rewrite HD2. destruct (decide _) as [Hc|]; [apply Hchild; exact Hc|apply (RT_D _ _ _ _ _ HR); exact Hx].
  Qed.

  (** ** update *)
  Lemma RT_update s A H (G C : nat -> nat -> Prop) h k : RT s A H G C -> node (Datatypes.S h) k ->
    G h (2 * k) -> G h (2 * k + 1) -> C (Datatypes.S h) k -> (forall j x, node j x -> anc (Datatypes.S h) k j x -> C j x) -> GA A ->
    exists s', ltc_update opc s k = Ok s' /\ RT s' A H (fun j x => G j x \/ (j = Datatypes.S h /\ x = k)) C.
  Proof.
    intros HR Hk G1 G2 Ck Hanc HA. pose proof (node_lt _ _ Hk) as Hkl. pose proof (RT_R _ _ _ _ _ HR) as HR0.
    pose proof (R_d _ _ _ _ _ _ _ _ _ HR0) as L1.
    assert (k < size) as Hks by (apply (node_inner _ _ Hk); lia).
    pose proof (node_left _ _ Hk) as Hkl2. pose proof (node_right _ _ Hk) as Hkr2.
    assert (Hca : forall c, c / 2 = k -> forall j x, node j x -> anc h c j x -> C j x).
    { intros c Hck j x Hx [Hj ->]. destruct (decide (j = Datatypes.S h)) as [->|Hjne].
      - replace (Datatypes.S h - h) with 1 by lia. change (2 ^ 1) with 2. rewrite Hck. exact Ck.
      - apply Hanc; [exact Hx|]. split; [lia|]. rewrite (div_up 1 (j - h)) by lia. change (2 ^ 1) with 2. rewrite Hck. f_equal. f_equal. lia. }
    pose proof (R_read e op idm mapping log s A G C h (2 * k) HR0 Hkl2 G1
      (Hca _ (eq_sym (Nat.div_unique (2 * k) 2 k 0 ltac:(lia) ltac:(lia))))) as E1.
    pose proof (R_read e op idm mapping log s A G C h (2 * k + 1) HR0 Hkr2 G2
      (Hca _ (eq_sym (Nat.div_unique (2 * k + 1) 2 k 1 ltac:(lia) ltac:(lia))))) as E2.
    pose proof (pow2_pos h) as Hph.
    assert (Hgood : goodS (op (Pr A (2 * k * 2 ^ h) ((2 * k + 1) * 2 ^ h)) (Pr A ((2 * k + 1) * 2 ^ h) ((2 * k + 1 + 1) * 2 ^ h)))).
    { rewrite <- Pr_app by nia. apply HA; [destruct Hkl2 as (_ & Hl & _); nia|apply (node_hi _ _ Hkr2)]. }
    destruct (R_update e op idm mapping L log s A G C h k HR0 Hk G1 G2 Ck) as (s' & E & HR').
    assert (Es : ltc_update opc s k = lt_update op s k).
    { unfold ltc_update, lt_update. destruct s as [d lz]. cbn [fst snd] in E1, E2. rewrite E1. cbn [mbind res_bind]. rewrite E2. cbn [mbind res_bind].
      rewrite AO by exact Hgood. reflexivity. }
    exists s'. split; [rewrite Es; exact E|].
    unfold lt_update in E. destruct s as [d lz]. cbn [fst snd] in *. rewrite E1 in E. cbn [mbind res_bind] in E. rewrite E2 in E. cbn [mbind res_bind] in E.
    rewrite vset_ok in E by lia. cbn [mbind res_bind] in E. injection E as <-. split; [exact HR'|exact (RT_T _ _ _ _ _ HR)|].
    intros x Hx. unfold LazyProof.D. cbn [fst]. rewrite default_insert by lia.
    destruct (decide (x = k)); [exact Hgood|]. apply (RT_D _ _ _ _ _ HR x Hx).
  Qed.

  (** ** assignment to a leaf *)
  Lemma RT_set_leaf s A H G (C : nat -> nat -> Prop) p (x : S) : RT s A H G C -> leaf p ->
    (forall j, 0 < j <= log -> C j (p / 2 ^ j)) -> goodS x ->
    vset s.1 p x = Ok (<[p := x]> s.1) /\
    RT (<[p := x]> s.1, s.2) (fun q => if decide (q = p) then x else A q) H (fun j y => G j y /\ ~ anc 0 p j y) C.
  Proof.
    intros HR Hp HC Hx. pose proof (RT_R _ _ _ _ _ HR) as HR0. pose proof (R_d _ _ _ _ _ _ _ _ _ HR0) as L1.
    destruct (R_set_leaf e op idm mapping L log s A G C p x HR0 Hp HC) as [E HR'].
    split; [exact E|]. split; [exact HR'|exact (RT_T _ _ _ _ _ HR)|].
    intros y Hy. unfold LazyProof.D. cbn [fst]. rewrite default_insert by (destruct Hp; lia).
    destruct (decide (y = p)); [exact Hx|]. apply (RT_D _ _ _ _ _ HR y Hy).
  Qed.

  Lemma RT_read s A H (G C : nat -> nat -> Prop) h k : RT s A H G C -> node h k -> G h k ->
    (forall j x, node j x -> anc h k j x -> C j x) ->
    vget s.1 k = Ok (Pr A (k * 2 ^ h) ((k + 1) * 2 ^ h)).
  Proof. intros HR. apply (R_read e op idm mapping log). exact (RT_R _ _ _ _ _ HR). Qed.

  Local Notation push := (ltc_push idm mapc compc size).
  Local Notation update := (ltc_update opc).
  Local Notation all_apply := (ltc_all_apply mapc compc size).

  Lemma push_path_ok s A M C p : RT s A M all C -> leaf p -> GA A -> GH M ->
    exists s', ltc_push_path idm mapc compc size log s p = Ok s' /\ RT s' A M all (on_path p).
  Proof.
    intros HR Hp HA HH. unfold ltc_push_path, range_incl.
    destruct (rfor_rev_range_inv (fun i s => RT s A M all (fun j x => i <= j /\ x = p / 2 ^ j))
      1 (Datatypes.S log) (fun i s => push s (p / 2 ^ i)) s) as (s' & E & HR').
    - lia.
    - eapply RT_mono; [exact HR|reflexivity|reflexivity|intros; exact I|]. intros h k _ (Hh & _) [H _]. lia.
    - intros i s1 Hi H1. destruct i as [|i]; [lia|].
      destruct (RT_push s1 A M _ i (p / 2 ^ Datatypes.S i) H1) as (s2 & E2 & H2).
      { apply leaf_node; [exact Hp|lia]. }
      { intros j x _ [Hj ->]. split; [lia|]. symmetry. apply div_up. lia. }
      { exact HA. }
      { exact HH. }
      exists s2. split; [exact E2|]. eapply RT_mono; [exact H2|reflexivity|reflexivity|intros; exact I|].
      intros h k _ Hk [H ->]. destruct (decide (h = Datatypes.S i)) as [->|Hne]; [left; auto|right].
      split; [split; [lia|reflexivity]|].
      assert (Hn : node (Datatypes.S i) (p / 2 ^ Datatypes.S i)) by (apply leaf_node; [exact Hp|lia]).
      split; intros E'; rewrite E' in Hk.
      + pose proof (node_uniq _ _ _ Hk (node_left _ _ Hn)). lia.
      + pose proof (node_uniq _ _ _ Hk (node_right _ _ Hn)). lia.
    - exists s'. split; [exact E|]. eapply RT_mono; [exact HR'|reflexivity|reflexivity|intros; exact I|].
      intros h k Hh _ [_ ->]. split; [lia|reflexivity].
  Qed.

  Lemma update_path_ok s A M p : leaf p -> GA A ->
    RT s A M (fun j x => ~ anc 0 p j x) (on_path p) ->
    exists s', ltc_update_path opc log s p = Ok s' /\ RT s' A M all (on_path p).
  Proof.
    intros Hp HA HR. unfold ltc_update_path, range_incl.
    destruct (rfor_range_inv (fun i s => RT s A M (fun j x => j < i \/ x <> p / 2 ^ j) (on_path p))
      1 (Datatypes.S log) (fun i s => update s (p / 2 ^ i)) s) as (s' & E & HR').
    - lia.
    - eapply RT_mono; [exact HR|reflexivity|reflexivity| |auto]. intros h k _ [H|H] [Ha1 Ha2]; [lia|].
      rewrite Nat.sub_0_r in Ha2. congruence.
    - intros i s1 Hi H1. destruct i as [|i]; [lia|].
      destruct (RT_update s1 A M _ _ i (p / 2 ^ Datatypes.S i) H1) as (s2 & E2 & H2).
      + apply leaf_node; [exact Hp|lia].
      + left. lia.
      + left. lia.
      + split; [lia|reflexivity].
      + intros j x _ [Hj ->]. split; [lia|]. symmetry. apply div_up. lia.
      + exact HA.
      + exists s2. split; [exact E2|]. eapply RT_mono; [exact H2|reflexivity|reflexivity| |auto].
        intros h k _ [H|H]; [|left; right; exact H].
        destruct (decide (h = Datatypes.S i)) as [->|]; [|left; left; lia].
        destruct (decide (k = p / 2 ^ Datatypes.S i)) as [->|]; [right; auto|left; right; assumption].
    - exists s'. split; [exact E|]. eapply RT_mono; [exact HR'|reflexivity|reflexivity| |auto].
      intros h k (Hh & _) _. left. lia.
  Qed.

  Lemma straddles_up l i j x : i <= j -> straddles l i x -> straddles l j (x / 2 ^ (j - i)).
  Proof.
    intros Hj Hs. destruct (straddles_div l i x Hs) as [-> _]. rewrite <- div_up by exact Hj.
    unfold straddles in *. destruct (proj1 (under j (l / 2 ^ j) l) eq_refl) as [U1 U2]. split; [|exact U2].
    assert (l / 2 ^ j * 2 ^ j <> l); [|lia]. intros E. assert (l / 2 ^ i * 2 ^ i = l); [|lia].
    replace (2 ^ j) with (2 ^ (j - i) * 2 ^ i) in E by (rewrite <- Nat.pow_add_r; f_equal; lia).
    rewrite Nat.mul_assoc in E. rewrite <- E at 1. rewrite Nat.div_mul by (pose proof (pow2_pos i); lia). exact E.
  Qed.

  Lemma push_bounds_ok s A M C l r (which : bool) : RT s A M all C -> GA A -> GH M -> size <= l <= 2 * size -> size <= r <= 2 * size ->
    exists s', rfor (rev (range_incl 1 log))
      (if which then ltc_push_bounds idm mapc compc size l r else ltc_push_bounds' idm mapc compc size l r) s = Ok s' /\
      RT s' A M all (bnd l r).
  Proof.
    intros HR HA HH Hl Hr. unfold range_incl.
    destruct (rfor_rev_range_inv (fun i s => RT s A M all (fun j x => i <= j /\ bnd l r j x))
      1 (Datatypes.S log) (if which then ltc_push_bounds idm mapc compc size l r else ltc_push_bounds' idm mapc compc size l r) s) as (s' & E & HR').
    - lia.
    - eapply RT_mono; [exact HR|reflexivity|reflexivity|intros; exact I|]. intros h k _ (Hh & _) [H _]. lia.
    - clear s C HR. intros i s Hi HR. destruct i as [|i]; [lia|].
      assert (Hpush : forall s (C : nat -> nat -> Prop) q, RT s A M all C ->
        (forall j x, C j x -> Datatypes.S i <= j) -> (forall j x, Datatypes.S i < j -> straddles q j x -> C j x) -> straddles q (Datatypes.S i) (q / 2 ^ Datatypes.S i) ->
        size <= q <= 2 * size ->
        exists s', push s (q / 2 ^ Datatypes.S i) = Ok s' /\
          RT s' A M all (fun j x => C j x \/ (j = Datatypes.S i /\ straddles q j x))).
      { clear s HR. intros s C q HR HC HC2 Hst Hq.
        pose proof (straddles_node _ _ _ Hst ltac:(lia) Hq) as Hn.
        destruct (RT_push s A M C i _ HR Hn) as (s' & E & HR'); [|exact HA|exact HH|].
        { intros j x _ [Hj ->]. apply HC2; [exact Hj|]. apply straddles_up; [lia|exact Hst]. }
        exists s'. split; [exact E|]. eapply RT_mono; [exact HR'|reflexivity|reflexivity|intros; exact I|].
        intros h k _ Hk [H|[-> H]].
        - right. split; [exact H|]. apply HC in H. split; intros E'; rewrite E' in Hk.
          + pose proof (node_uniq _ _ _ Hk (node_left _ _ Hn)). lia.
          + pose proof (node_uniq _ _ _ Hk (node_right _ _ Hn)). lia.
        - left. split; [reflexivity|]. apply straddles_div in H. apply H. }
      assert (Hs1 : exists s1, (if straddled l (Datatypes.S i) then push s (l / 2 ^ Datatypes.S i) else Ok s) = Ok s1 /\
        RT s1 A M all (fun j x => (Datatypes.S i + 1 <= j /\ bnd l r j x) \/ (j = Datatypes.S i /\ straddles l j x))).
      { destruct (straddled l (Datatypes.S i)) eqn:Est.
        - apply straddled_true in Est. apply Hpush; [exact HR|intros; lia|intros j x Hj Hs; split; [lia|left; exact Hs]|exact Est|exact Hl].
        - exists s. split; [reflexivity|]. eapply RT_mono; [exact HR|reflexivity|reflexivity|intros; exact I|].
          intros h k _ Hk [H|[-> H]]; [exact H|]. apply straddles_div in H as [_ H]. congruence. }
      destruct Hs1 as (s1 & E1 & H1).
      assert (Hs2 : exists s2, (if straddled r (Datatypes.S i) then push s1 (r / 2 ^ Datatypes.S i) else Ok s1) = Ok s2 /\
        RT s2 A M all (fun j x => Datatypes.S i <= j /\ bnd l r j x)).
      { destruct (straddled r (Datatypes.S i)) eqn:Est.
        - apply straddled_true in Est. destruct (Hpush s1 _ r H1) as (s2 & E2 & H2); [intros j x [[? _]|[? _]]; lia|intros j x Hj Hs; left; split; [lia|right; exact Hs]|exact Est|exact Hr|].
          exists s2. split; [exact E2|]. eapply RT_mono; [exact H2|reflexivity|reflexivity|intros; exact I|].
          intros h k _ Hk [H Hb]. destruct (decide (h = Datatypes.S i)) as [->|]; [|left; left; split; [lia|exact Hb]].
          destruct Hb as [Hb|Hb]; [left; right; auto|right; auto].
        - exists s1. split; [reflexivity|]. eapply RT_mono; [exact H1|reflexivity|reflexivity|intros; exact I|].
          intros h k _ Hk [H Hb]. destruct (decide (h = Datatypes.S i)) as [->|]; [|left; split; [lia|exact Hb]].
          destruct Hb as [Hb|Hb]; [right; auto|]. apply straddles_div in Hb as [_ Hb]. congruence. }
      destruct Hs2 as (s2 & E2 & H2). exists s2. split; [|exact H2].
      destruct which.
      + unfold ltc_push_bounds. rewrite E1. cbn [mbind res_bind]. exact E2.
      + unfold ltc_push_bounds'. rewrite E1. cbn [mbind res_bind].
        destruct (straddled r (Datatypes.S i)) eqn:Est; [|exact E2].
        apply straddled_true in Est. pose proof (pow2_pos log). rewrite nsub_ok by lia. cbn [mbind res_bind].
        rewrite straddles_pred by exact Est. exact E2.
    - exists s'. split; [exact E|]. eapply RT_mono; [exact HR'|reflexivity|reflexivity|intros; exact I|].
      intros h k Hh _ Hb. split; [lia|exact Hb].
  Qed.

  (** ** the product loop *)
  Lemma prod_loop_ok s A M G l r : RT s A M G (bnd l r) -> (forall h k, G h k) -> GA A -> size <= l -> l <= r <= 2 * size ->
    exists sml smr, rloop (r + 1) (stc_prod_step opc s.1) (l, r, e, e) = Ok (sml, smr) /\ opc sml smr = Ok (Pr A l r).
  Proof.
    intros HR HG HA Hl Hlr.
    destruct (rloop_inv_idx
      (fun m '(l', r', sml, smr) => m = r' /\ exists a b, l <= a <= b /\ b <= r /\ sml = Pr A l a /\ smr = Pr A b r /\
         (r' <= l' -> a = b) /\ (l' < r' -> exists h, h <= log /\ a = l' * 2 ^ h /\ b = r' * 2 ^ h /\
          (l' - 1) * 2 ^ h < l /\ r < (r' + 1) * 2 ^ h))
      (fun '(sml, smr) => opc sml smr = Ok (Pr A l r))
      (stc_prod_step opc s.1)) with (fuel := r + 1) (m := r) (s := (l, r, e, e)) as ([sml smr] & E & Hq).
    - intros m [[[l' r'] sml] smr] (-> & a & b & Hab & Hbr & -> & -> & Heq & Hinv). unfold stc_prod_step.
      destruct (Nat.ltb_spec l' r') as [Hlt|Hge].
      2:{ eexists. split; [reflexivity|]. cbn beta iota. rewrite <- (Heq Hge) in *. rewrite AO; rewrite <- (Pr_app A l a r) by lia; [reflexivity|].
          apply HA; lia. }
      destruct (Hinv Hlt) as (h & Hh & -> & -> & H3 & H4). clear Hinv Heq.
      pose proof (pow2_pos h) as Hph. pose proof (range_node h l' r' Hh ltac:(lia) Hlt ltac:(lia)) as [N1 N2].
      assert (exists l1,
        (if Nat.odd l' then x ← vget s.1 l'; y ← opc (Pr A l (l' * 2 ^ h)) x; Ok (l' + 1, y) else Ok (l', Pr A l (l' * 2 ^ h))) = Ok (l1, Pr A l (l1 * 2 ^ h)) /\
        Nat.even l1 = true /\ l' <= l1 <= l' + 1 /\ l1 <= r' /\ l <= l1 * 2 ^ h /\ (l1 - 2) * 2 ^ h < l) as (l1 & -> & He1 & Hl1 & Hl1r & Hl2 & Hl3).
      { destruct (Nat.odd l') eqn:Ho.
        - rewrite (RT_read s A M G (bnd l r) h l' HR N1 (HG _ _)).
          2:{ intros j x _ Ha. eapply bnd_left; [exact Ho| |exact Ha]. lia. }
          cbn [mbind res_bind]. rewrite AO by (rewrite <- Pr_app by nia; apply HA; nia). cbn [mbind res_bind]. rewrite <- Pr_app by nia.
          eexists. split; [reflexivity|]. split; [rewrite Nat.add_1_r, Nat.even_succ; exact Ho|]. split; [lia|]. split; [lia|]. split; [nia|].
          replace (l' + 1 - 2) with (l' - 1) by lia. lia.
        - eexists. split; [reflexivity|]. split; [rewrite <- Nat.negb_odd, Ho; reflexivity|].
          split; [lia|]. split; [lia|]. split; [lia|]. nia. }
      cbn [mbind res_bind].
      assert (exists r1,
        (if Nat.odd r' then q ← nsub r' 1; x ← vget s.1 q; y ← opc x (Pr A (r' * 2 ^ h) r); Ok (q, y) else Ok (r', Pr A (r' * 2 ^ h) r)) = Ok (r1, Pr A (r1 * 2 ^ h) r) /\
        Nat.even r1 = true /\ l1 <= r1 /\ r' - 1 <= r1 <= r') as (r1 & -> & He2 & Hr1 & Hr2).
      { destruct (Nat.odd r') eqn:Ho.
        - assert (l1 < r') as Hlr1.
          { destruct (decide (l1 = r')) as [->|]; [|lia]. rewrite <- Nat.negb_odd, Ho in He1. discriminate. }
          rewrite nsub_ok by lia. cbn [mbind res_bind].
          rewrite (RT_read s A M G (bnd l r) h (r' - 1) HR N2 (HG _ _)).
          2:{ intros j x _ Ha. eapply bnd_right; [exact Ho| |exact Ha]. lia. }
          cbn [mbind res_bind]. replace (r' - 1 + 1) with r' by lia.
          rewrite AO by (rewrite <- Pr_app by nia; apply HA; nia). cbn [mbind res_bind]. rewrite <- Pr_app by nia.
          eexists. split; [reflexivity|]. split.
          { destruct r' as [|r'']; [lia|]. rewrite Nat.odd_succ in Ho.
            replace (Datatypes.S r'' - 1) with r'' by lia. exact Ho. }
          lia.
        - eexists. split; [reflexivity|]. split; [rewrite <- Nat.negb_odd, Ho; reflexivity|]. lia. }
      cbn [mbind res_bind]. eexists. split; [reflexivity|]. cbn beta iota.
      apply Nat.even_spec in He1, He2. destruct He1 as [l2 ->]. destruct He2 as [r2 ->].
      assert (2 * l2 / 2 = l2) as El by (rewrite Nat.mul_comm; apply Nat.div_mul; lia).
      assert (2 * r2 / 2 = r2) as Er by (rewrite Nat.mul_comm; apply Nat.div_mul; lia).
      rewrite El, Er. exists r2. split; [lia|]. split; [reflexivity|]. exists (2 * l2 * 2 ^ h), (2 * r2 * 2 ^ h).
      split; [nia|]. split; [nia|]. split; [reflexivity|]. split; [reflexivity|]. split; [intros; assert (l2 = r2) as -> by lia; reflexivity|].
      intros Hlt2. exists (Datatypes.S h). rewrite Nat.pow_succ_r'. split.
      { apply (Nat.pow_le_mono_r_iff 2); [lia|]. rewrite Nat.pow_succ_r'. nia. }
      split; [lia|]. split; [lia|]. split; nia.
    - split; [reflexivity|]. exists l, r. rewrite !Pr_nil by lia. split; [lia|]. split; [lia|]. split; [reflexivity|]. split; [reflexivity|].
      split; [lia|]. intros Hlt. exists 0. rewrite Nat.pow_0_r, !Nat.mul_1_r. pose proof (pow2_pos log). lia.
    - lia.
    - eauto.
  Qed.

  Lemma apply_loop_ok s A M l r f : RT s A M all (bnd l r) -> size <= l -> l <= r <= 2 * size ->
    GA (fun p => if decide (l <= p < r) then mapping f (A p) else A p) -> GH (fun p => if decide (l <= p < r) then f :: M p else M p) ->
    exists s', rloop (r + 1) (ltc_apply_step mapc compc size f) (l, r, s) = Ok s' /\
      RT s' (fun p => if decide (l <= p < r) then mapping f (A p) else A p) (fun p => if decide (l <= p < r) then f :: M p else M p) (fun j x => ~ bnd l r j x) (bnd l r).
  Proof.
    intros HR Hl Hlr GA' GM'.
    set (part := fun a b p => if decide (l <= p < a \/ b <= p < r) then mapping f (A p) else A p).
    set (partM := fun a b p => if decide (l <= p < a \/ b <= p < r) then f :: M p else M p).
    assert (Hpart : forall a b a' b' s, RT s (part a b) (partM a b) (fun j x => ~ bnd l r j x) (bnd l r) ->
      (forall p, leaf p -> (l <= p < a \/ b <= p < r) <-> (l <= p < a' \/ b' <= p < r)) ->
      RT s (part a' b') (partM a' b') (fun j x => ~ bnd l r j x) (bnd l r)).
    { intros a b a' b' s0 H0 He. eapply RT_mono; [exact H0| | |auto|auto]; intros p Hp; unfold part, partM;
        specialize (He p Hp); destruct (decide _), (decide _); try reflexivity; exfalso; tauto. }
    assert (Hstep : forall s h k a b a' b', RT s (part a b) (partM a b) (fun j x => ~ bnd l r j x) (bnd l r) -> node h k ->
      (forall j x, node j x -> anc h k j x -> bnd l r j x) -> l <= k * 2 ^ h -> (k + 1) * 2 ^ h <= r ->
      (forall p, leaf p -> (l <= p < a' \/ b' <= p < r) <-> ((l <= p < a \/ b <= p < r) \/ k * 2 ^ h <= p < (k + 1) * 2 ^ h)) ->
      (forall p, k * 2 ^ h <= p < (k + 1) * 2 ^ h -> ~ (l <= p < a \/ b <= p < r)) -> a <= r -> l <= b ->
      exists s', all_apply s k f = Ok s' /\ RT s' (part a' b') (partM a' b') (fun j x => ~ bnd l r j x) (bnd l r)).
    { clear s HR. intros s h k a b a' b' HR N Ha Hk1 Hk2 He Hd Har Hlb.
      destruct (RT_all_apply s _ _ _ _ h k f HR N) as (s' & E & HR').
      { intros Hb. apply (bnd_not_left l r h k); [lia|lia|exact N|exact Hk1|exact Hk2|]. exists h. auto. }
      { exact Ha. }
      { pose proof (node_hi h k N). destruct N as (_ & N1 & _). pose proof (pow2_pos h).
        specialize (GA' (k * 2 ^ h) ((k + 1) * 2 ^ h) ltac:(nia) ltac:(nia)). erewrite Pr_ext; [exact GA'|]. intros p Hp. cbn beta.
        rewrite decide_True by (apply under; exact Hp). rewrite decide_True by lia. unfold part. rewrite decide_False by (apply Hd; exact Hp). reflexivity. }
      { intros p w Hp Hw. apply (GM' p w Hp). etransitivity; [exact Hw|]. cbn beta. unfold partM. specialize (He p Hp). specialize (Hd p).
        pose proof (under h k p) as Hu.
        destruct (decide (p / 2 ^ h = k)) as [Q|Q].
        - rewrite decide_False by tauto. rewrite decide_True by lia. reflexivity.
        - destruct (decide (l <= p < r)); destruct (decide _); try reflexivity; [apply sublist_cons; reflexivity|exfalso; lia]. }
      exists s'. split; [exact E|].
      eapply RT_mono; [exact HR'| | | |].
      - intros p Hp. unfold part. specialize (He p Hp). specialize (Hd p). pose proof (under h k p) as Hu.
        repeat (destruct (decide _)); try reflexivity; exfalso; tauto.
      - intros p Hp. unfold partM. specialize (He p Hp). specialize (Hd p). pose proof (under h k p) as Hu.
        repeat (destruct (decide _)); try reflexivity; exfalso; tauto.
      - intros j x Hx Hb. split; [exact Hb|]. intros Hanc. apply Hb. apply Ha; assumption.
      - intros j x _ Hx Hb. split; [exact Hb|]. intros ->.
        apply (bnd_not_left l r h k); [lia|lia|exact N|exact Hk1|exact Hk2|]. exists j. auto. }
    destruct (rloop_inv_idx
      (fun m '(l', r', s) => m = r' /\
         ((l' < r' /\ exists h, h <= log /\ size <= l' * 2 ^ h /\ r' * 2 ^ h <= 2 * size /\
          (l' - 1) * 2 ^ h < l <= l' * 2 ^ h /\ r' * 2 ^ h <= r < (r' + 1) * 2 ^ h /\
          RT s (part (l' * 2 ^ h) (r' * 2 ^ h)) (partM (l' * 2 ^ h) (r' * 2 ^ h)) (fun j x => ~ bnd l r j x) (bnd l r)) \/
          (r' <= l' /\ RT s (part r r) (partM r r) (fun j x => ~ bnd l r j x) (bnd l r))))
      (fun s => RT s (part r r) (partM r r) (fun j x => ~ bnd l r j x) (bnd l r))
      (ltc_apply_step mapc compc size f)) with (fuel := r + 1) (m := r) (s := (l, r, s)) as (s' & E & Hq).
    - clear s HR. intros m [[l' r'] s] (-> & Hinv). unfold ltc_apply_step.
      destruct (Nat.ltb_spec l' r') as [Hlt|Hge].
      2:{ eexists. split; [reflexivity|]. destruct Hinv as [[? _]|[_ H]]; [lia|exact H]. }
      destruct Hinv as [[_ (h & Hh & H1 & H2 & H3 & H4 & HR)]|[? _]]; [|lia].
      pose proof (pow2_pos h) as Hph. pose proof (range_node h l' r' Hh H1 Hlt H2) as [N1 N2].
      assert (exists l1 s1,
        (if Nat.odd l' then s ← all_apply s l' f; Ok (l' + 1, s) else Ok (l', s)) = Ok (l1, s1) /\
        Nat.even l1 = true /\ l' <= l1 <= l' + 1 /\ l1 <= r' /\ l <= l1 * 2 ^ h /\ (l1 - 2) * 2 ^ h < l /\
        RT s1 (part (l1 * 2 ^ h) (r' * 2 ^ h)) (partM (l1 * 2 ^ h) (r' * 2 ^ h)) (fun j x => ~ bnd l r j x) (bnd l r))
        as (l1 & s1 & -> & He1 & Hl1 & Hl1r & Hl2 & Hl3 & HR1).
      { destruct (Nat.odd l') eqn:Ho.
        - destruct (Hstep s h l' _ _ ((l' + 1) * 2 ^ h) (r' * 2 ^ h) HR N1) as (s1 & -> & HR1).
          + intros j x _ Ha. eapply bnd_left; eassumption.
          + lia.
          + nia.
          + intros p Hp. nia.
          + intros p Hp. nia.
          + nia.
          + nia.
          + cbn [mbind res_bind]. eexists _, _. split; [reflexivity|].
            split; [rewrite Nat.add_1_r, Nat.even_succ; exact Ho|]. split; [lia|]. split; [lia|]. split; [nia|].
            split; [replace (l' + 1 - 2) with (l' - 1) by lia; lia|]. exact HR1.
        - eexists _, _. split; [reflexivity|]. split; [rewrite <- Nat.negb_odd, Ho; reflexivity|].
          split; [lia|]. split; [lia|]. split; [lia|]. split; [nia|]. exact HR. }
      cbn [mbind res_bind].
      assert (exists r1 s2,
        (if Nat.odd r' then r ← nsub r' 1; s ← all_apply s1 r f; Ok (r, s) else Ok (r', s1)) = Ok (r1, s2) /\
        Nat.even r1 = true /\ l1 <= r1 /\ r' - 1 <= r1 <= r' /\
        RT s2 (part (l1 * 2 ^ h) (r1 * 2 ^ h)) (partM (l1 * 2 ^ h) (r1 * 2 ^ h)) (fun j x => ~ bnd l r j x) (bnd l r))
        as (r1 & s2 & -> & He2 & Hr1 & Hr2 & HR2).
      { destruct (Nat.odd r') eqn:Ho.
        - assert (l1 < r') as Hlr1.
          { destruct (decide (l1 = r')) as [->|]; [|lia]. rewrite <- Nat.negb_odd, Ho in He1. discriminate. }
          rewrite nsub_ok by lia. cbn [mbind res_bind].
          destruct (Hstep s1 h (r' - 1) _ _ (l1 * 2 ^ h) ((r' - 1) * 2 ^ h) HR1 N2) as (s2 & -> & HR2).
          + intros j x _ Ha. eapply bnd_right; eassumption.
          + nia.
          + nia.
          + intros p Hp. replace (r' - 1 + 1) with r' by lia.
            assert ((r' - 1) * 2 ^ h <= r' * 2 ^ h) by nia. assert (l1 * 2 ^ h <= (r' - 1) * 2 ^ h) by nia. lia.
          + intros p Hp. replace (r' - 1 + 1) with r' in Hp by lia. assert (l1 * 2 ^ h <= (r' - 1) * 2 ^ h) by nia. lia.
          + nia.
          + nia.
          + cbn [mbind res_bind]. eexists _, _. split; [reflexivity|]. split.
            { destruct r' as [|r'']; [lia|]. rewrite Nat.odd_succ in Ho.
              replace (Datatypes.S r'' - 1) with r'' by lia. exact Ho. }
            split; [lia|]. split; [lia|]. exact HR2.
        - eexists _, _. split; [reflexivity|]. split; [rewrite <- Nat.negb_odd, Ho; reflexivity|].
          split; [lia|]. split; [lia|]. exact HR1. }
      cbn [mbind res_bind]. eexists. split; [reflexivity|]. cbn.
      apply Nat.even_spec in He1, He2. destruct He1 as [l2 ->]. destruct He2 as [r2 ->].
      assert (2 * l2 / 2 = l2) as El by (rewrite Nat.mul_comm; apply Nat.div_mul; lia).
      assert (2 * r2 / 2 = r2) as Er by (rewrite Nat.mul_comm; apply Nat.div_mul; lia).
      rewrite El, Er. exists r2. split; [lia|]. split; [reflexivity|].
      destruct (decide (l2 < r2)) as [Hlt2|Hge2].
      + left. split; [exact Hlt2|]. exists (Datatypes.S h). rewrite Nat.pow_succ_r'.
        replace (l2 * (2 * 2 ^ h)) with (2 * l2 * 2 ^ h) by lia. replace (r2 * (2 * 2 ^ h)) with (2 * r2 * 2 ^ h) by lia.
        split.
        { apply (Nat.pow_le_mono_r_iff 2); [lia|]. rewrite Nat.pow_succ_r'. nia. }
        split; [nia|]. split; [nia|]. split; [nia|]. split; [nia|]. exact HR2.
      + right. split; [lia|]. eapply Hpart; [exact HR2|]. intros p Hp.
        assert (l2 = r2) as -> by lia. assert (2 * r2 * 2 ^ h <= r) by nia. lia.
    - split; [reflexivity|]. assert (HR0 : RT s (part l r) (partM l r) (fun j x => ~ bnd l r j x) (bnd l r)).
      { eapply RT_mono; [exact HR| | |intros; exact I|auto]; intros p Hp; unfold part, partM; rewrite decide_False by lia; reflexivity. }
      destruct (decide (l < r)) as [Hlt|Hge].
      + left. split; [exact Hlt|]. exists 0. rewrite Nat.pow_0_r, !Nat.mul_1_r. split; [lia|]. split; [lia|]. split; [lia|].
        split; [pose proof (pow2_pos log); lia|]. split; [lia|]. exact HR0.
      + right. split; [lia|]. eapply Hpart; [exact HR0|]. intros p Hp. lia.
    - lia.
    - exists s'. split; [exact E|]. eapply RT_mono; [exact Hq| | |auto|auto]; intros p Hp; unfold part, partM;
        destruct (decide _), (decide _); try reflexivity; exfalso; lia.
  Qed.

  Lemma update_bounds_ok s A M l r : GA A -> RT s A M (fun j x => ~ bnd l r j x) (bnd l r) -> size <= l <= 2 * size -> size <= r <= 2 * size ->
    exists s', rfor (range_incl 1 log) (ltc_update_bounds opc l r) s = Ok s' /\ RT s' A M all (bnd l r).
  Proof.
    intros HA HR Hl Hr. unfold range_incl.
    destruct (rfor_range_inv (fun i s => RT s A M (fun j x => j < i \/ ~ bnd l r j x) (bnd l r))
      1 (Datatypes.S log) (ltc_update_bounds opc l r) s) as (s' & E & HR').
    - lia.
    - eapply RT_mono; [exact HR|reflexivity|reflexivity| |auto]. intros h k Hk [H|H]; [|exact H].
      assert (h = 0) as -> by lia. intros [Hb|Hb]; unfold straddles in Hb; rewrite Nat.pow_0_r in Hb; lia.
    - clear s HR. intros i s Hi HR. destruct i as [|i]; [lia|].
      assert (Hupd : forall s (G : nat -> nat -> Prop) q, RT s A M G (bnd l r) -> (forall j x, j < Datatypes.S i -> G j x) ->
        straddles q (Datatypes.S i) (q / 2 ^ Datatypes.S i) -> (forall j x, straddles q j x -> bnd l r j x) ->
        size <= q <= 2 * size ->
        exists s', update s (q / 2 ^ Datatypes.S i) = Ok s' /\
          RT s' A M (fun j x => G j x \/ (j = Datatypes.S i /\ straddles q j x)) (bnd l r)).
      { clear s HR. intros s G q HR HG Hst Hb Hq.
        pose proof (straddles_node _ _ _ Hst ltac:(lia) Hq) as Hn.
        destruct (RT_update s A M G _ i _ HR Hn) as (s' & E & HR'); [apply HG; lia|apply HG; lia|apply Hb; exact Hst| |exact HA|].
        { intros j x _ [Hj ->]. apply Hb. apply straddles_up; [lia|exact Hst]. }
        exists s'. split; [exact E|]. eapply RT_mono; [exact HR'|reflexivity|reflexivity| |auto].
        intros h k Hk [H|[-> H]]; [left; exact H|right]. split; [reflexivity|]. apply straddles_div in H. apply H. }
      assert (Hs1 : exists s1, (if straddled l (Datatypes.S i) then update s (l / 2 ^ Datatypes.S i) else Ok s) = Ok s1 /\
        RT s1 A M (fun j x => (j < Datatypes.S i \/ ~ bnd l r j x) \/ (j = Datatypes.S i /\ straddles l j x)) (bnd l r)).
      { destruct (straddled l (Datatypes.S i)) eqn:Est.
        - apply straddled_true in Est. apply Hupd; [exact HR|intros; left; lia|exact Est|intros j x Hs; left; exact Hs|exact Hl].
        - exists s. split; [reflexivity|]. eapply RT_mono; [exact HR|reflexivity|reflexivity| |auto].
          intros h k Hk [H|[-> H]]; [exact H|]. apply straddles_div in H as [_ H]. congruence. }
      destruct Hs1 as (s1 & E1 & H1).
      assert (Hs2 : exists s2, (if straddled r (Datatypes.S i) then update s1 (r / 2 ^ Datatypes.S i) else Ok s1) = Ok s2 /\
        RT s2 A M (fun j x => j < Datatypes.S i + 1 \/ ~ bnd l r j x) (bnd l r)).
      { destruct (straddled r (Datatypes.S i)) eqn:Est.
        - apply straddled_true in Est. destruct (Hupd s1 _ r H1) as (s2 & E2 & H2); [intros; left; left; lia|exact Est|intros j x Hs; right; exact Hs|exact Hr|].
          exists s2. split; [exact E2|]. eapply RT_mono; [exact H2|reflexivity|reflexivity| |auto].
          intros h k Hk [H|H]; [|left; left; right; exact H].
          destruct (decide (h = Datatypes.S i)) as [->|]; [|left; left; left; lia].
          destruct (decide (straddles l (Datatypes.S i) k)); [left; right; auto|].
          destruct (decide (straddles r (Datatypes.S i) k)); [right; auto|]. left; left; right. intros [?|?]; tauto.
        - exists s1. split; [reflexivity|]. eapply RT_mono; [exact H1|reflexivity|reflexivity| |auto].
          intros h k Hk [H|H]; [|left; right; exact H].
          destruct (decide (h = Datatypes.S i)) as [->|]; [|left; left; lia].
          destruct (decide (straddles l (Datatypes.S i) k)); [right; auto|]. left; right. intros [Hb|Hb]; [tauto|].
          apply straddles_div in Hb as [_ Hb]. congruence. }
      destruct Hs2 as (s2 & E2 & H2). exists s2. split; [|exact H2].
      unfold ltc_update_bounds. rewrite E1. cbn [mbind res_bind].
      destruct (straddled r (Datatypes.S i)) eqn:Est; [|exact E2].
      apply straddled_true in Est. pose proof (pow2_pos log). rewrite nsub_ok by lia. cbn [mbind res_bind].
      rewrite straddles_pred by exact Est. exact E2.
    - exists s'. split; [exact E|]. eapply RT_mono; [exact HR'|reflexivity|reflexivity| |auto].
      intros h k (Hh & _) _. left. lia.
  Qed.

  (** after pushing k, the ancestors of its children are clean *)
  Lemma RT_push_down s A M C h k : GA A -> GH M -> RT s A M all C -> node (Datatypes.S h) k ->
    (forall j x, node j x -> anc (Datatypes.S h) k j x -> C j x) ->
    exists s' C', push s k = Ok s' /\ RT s' A M all C' /\
      (forall c, c = 2 * k \/ c = 2 * k + 1 -> forall j x, node j x -> anc h c j x -> C' j x).
  Proof.
    intros HA HM HR Hk Ha. destruct (RT_push s A M C h k HR Hk Ha HA HM) as (s' & E & HR').
    exists s'. eexists. split; [exact E|]. split; [exact HR'|].
    intros c Hc j x Hx [Hj ->].
    assert (Hck : c / 2 = k).
    { symmetry. destruct Hc as [->| ->]; [apply (Nat.div_unique _ _ _ 0)|apply (Nat.div_unique _ _ _ 1)]; lia. }
    destruct (decide (j = Datatypes.S h)) as [->|Hjne].
    - left. split; [reflexivity|]. replace (Datatypes.S h - h) with 1 by lia. exact Hck.
    - right. assert (Hx' : c / 2 ^ (j - h) = k / 2 ^ (j - Datatypes.S h)).
      { rewrite (div_up 1 (j - h)) by lia. change (2 ^ 1) with 2. rewrite Hck. f_equal. f_equal. lia. }
      rewrite Hx' in *. split; [apply Ha; [exact Hx|split; [lia|reflexivity]]|].
      split; intros E'; rewrite E' in Hx.
      + pose proof (node_uniq _ _ _ Hx (node_left _ _ Hk)). lia.
      + pose proof (node_uniq _ _ _ Hx (node_right _ _ Hk)). lia.
  Qed.

  Lemma descend_right_ok s A M C g l h sm l0 : GA A -> GH M -> size <= l0 -> RT s A M all C -> node h l ->
    (forall j x, node j x -> anc h l j x -> C j x) -> l0 <= l * 2 ^ h ->
    sm = Pr A l0 (l * 2 ^ h) -> g sm = true -> g (op sm (Pr A (l * 2 ^ h) ((l + 1) * 2 ^ h))) = false ->
    exists s' r C', ltc_descend_right opc idm mapc compc size g s l sm = Ok (s', r) /\ RT s' A M all C' /\
      l0 <= size + r < 2 * size /\ g (Pr A l0 (size + r)) = true /\ g (Pr A l0 (size + r + 1)) = false.
  Proof.
    intros HA HM Hsz HR Hn Ha Hl0 Hsm Ht Hf. unfold ltc_descend_right.
    match goal with |- context [rloop _ ?st _] => set (step := st) end.
    destruct (rloop_inv_idx
      (fun h '(s, l, sm) => exists C, RT s A M all C /\ node h l /\ (forall j x, node j x -> anc h l j x -> C j x) /\
         l0 <= l * 2 ^ h /\ sm = Pr A l0 (l * 2 ^ h) /\ g sm = true /\
         g (op sm (Pr A (l * 2 ^ h) ((l + 1) * 2 ^ h))) = false)
      (fun '(s, l) => exists C, RT s A M all C /\ leaf l /\ l0 <= l /\ g (Pr A l0 l) = true /\ g (Pr A l0 (l + 1)) = false)
      step) with (fuel := size + 1) (m := h) (s := (s, l, sm)) as ([s' l'] & E & C' & HR' & Hl' & H1 & H2 & H3).
    - clear s C l h sm HR Hn Ha Hl0 Hsm Ht Hf.
      intros h [[s l] sm] (C & HR & Hn & Ha & Hl0 & -> & Ht & Hf). unfold step.
      destruct h as [|h].
      + assert (~ l < size) by (intros H; apply (node_inner _ _ Hn) in H; lia).
        destruct (Nat.ltb_spec l size); [lia|]. eexists. split; [reflexivity|]. cbn.
        rewrite Nat.pow_0_r, !Nat.mul_1_r in *. exists C. split; [exact HR|].
        pose proof (node_lt _ _ Hn). split; [unfold leaf; lia|]. split; [exact Hl0|]. split; [exact Ht|].
        rewrite (Pr_app A l0 l) by lia. exact Hf.
      + assert (l < size) as Hls by (apply (node_inner _ _ Hn); lia).
        destruct (Nat.ltb_spec l size); [|lia].
        destruct (RT_push_down s A M C h l HA HM HR Hn Ha) as (s1 & C1 & -> & HR1 & Ha1). cbn [mbind res_bind].
        rewrite (RT_read s1 A M all C1 h (2 * l) HR1 (node_left _ _ Hn) I (Ha1 _ (or_introl eq_refl))). cbn [mbind res_bind].
        pose proof (pow2_pos h) as Hph. rewrite Nat.pow_succ_r' in *.
        replace (l * (2 * 2 ^ h)) with (2 * l * 2 ^ h) in * by lia.
        replace ((l + 1) * (2 * 2 ^ h)) with ((2 * l + 2) * 2 ^ h) in * by lia.
        pose proof (node_hi _ _ (node_left _ _ Hn)) as Hhi.
        rewrite AO by (rewrite <- Pr_app by nia; apply HA; nia). cbn [mbind res_bind].
        rewrite <- Pr_app by nia.
        destruct (g (Pr A l0 ((2 * l + 1) * 2 ^ h))) eqn:Hg; (eexists; split; [reflexivity|]; cbn; exists h; split; [lia|]; exists C1; split; [exact HR1|]).
        * split; [apply node_right; exact Hn|]. split; [apply Ha1; auto|]. split; [nia|]. split; [reflexivity|].
          split; [exact Hg|]. rewrite <- Pr_app by nia. rewrite <- Hf. rewrite <- Pr_app by nia. f_equal. f_equal. lia.
        * split; [apply node_left; exact Hn|]. split; [apply Ha1; auto|]. split; [nia|]. split; [reflexivity|].
          split; [exact Ht|]. rewrite <- Pr_app by nia. exact Hg.
    - exists C. auto 10.
    - apply height_lt. apply Hn.
    - rewrite E. cbn [mbind res_bind]. unfold leaf in Hl'. rewrite nsub_ok by lia. cbn [mbind res_bind].
      exists s', (l' - size), C'. split; [reflexivity|]. split; [exact HR'|].
      replace (size + (l' - size)) with l' by lia. split; [lia|]. auto.
  Qed.

  (** the part of the search state that does not mention the array *)
  Lemma max_right_ok s A M n g l0 : GA A -> GH M -> RT s A M all (on_path l0) -> leaf l0 -> g e = true ->
    exists s' r C', rloop (2 * size + 1) (ltc_max_right_step opc idm mapc compc n size g) (s, l0, e) = Ok (s', r) /\ RT s' A M all C' /\
      ((r = n /\ g (Pr A l0 (2 * size)) = true) \/
       (l0 <= size + r < 2 * size /\ g (Pr A l0 (size + r)) = true /\ g (Pr A l0 (size + r + 1)) = false)).
  Proof.
    intros HA HM HR Hl0 Hge.
    destruct (rloop_inv_idx
      (fun m '(s', l, sm) => s' = s /\ exists h, m + l * 2 ^ h = 2 * size /\ l * 2 ^ h < 2 * size /\
          l0 <= l * 2 ^ h /\ (l0 = l * 2 ^ h \/ (Nat.even l = true /\ (l - 2) * 2 ^ h <= l0)) /\
          sm = Pr A l0 (l * 2 ^ h) /\ g sm = true)
      (fun '(s', r) => exists C', RT s' A M all C' /\
        ((r = n /\ g (Pr A l0 (2 * size)) = true) \/
         (l0 <= size + r < 2 * size /\ g (Pr A l0 (size + r)) = true /\ g (Pr A l0 (size + r + 1)) = false)))
      (ltc_max_right_step opc idm mapc compc n size g)) with (fuel := 2 * size + 1) (m := 2 * size - l0) (s := (s, l0, e))
      as ([s' r] & E & C' & H); [|split; [reflexivity|]; exists 0; rewrite Nat.pow_0_r, Nat.mul_1_r|lia|].
    2:{ unfold leaf in Hl0. split; [lia|]. split; [lia|]. split; [lia|]. split; [auto|].
        rewrite Pr_nil by lia. auto. }
    2:{ exists s', r, C'. auto. }
    intros m [[s' l] sm] (-> & h & H1 & H2 & H3 & H4 & -> & H5). unfold ltc_max_right_step.
    unfold leaf in Hl0. pose proof (pow2_pos log) as Hsz.
    assert (0 < l) as Hl by nia.
    destruct (strip_even_spec l Hl) as (k & l' & -> & Hll & Hodd). cbn [mbind res_bind].
    assert (Hpar : (l' - 1) * 2 ^ (k + h) <= l0).
    { rewrite Nat.pow_add_r. destruct H4 as [->|[Hev H4]]; [subst l; nia|].
      destruct k as [|k].
      { rewrite Nat.pow_0_r, Nat.mul_1_r in Hll. subst l'. rewrite <- Nat.negb_even, Hev in Hodd. discriminate. }
      rewrite Nat.pow_succ_r' in *. pose proof (pow2_pos k).
      transitivity ((l - 2) * 2 ^ h); [|exact H4].
      rewrite Nat.mul_assoc. apply Nat.mul_le_mono_r. subst l. nia. }
    assert (l * 2 ^ h = l' * 2 ^ (k + h)) as E by (rewrite Nat.pow_add_r; nia).
    rewrite E in *. clear E H4. generalize dependent (k + h). clear k h l Hl Hll.
    intros h H1 H2 H3 H5 Hpar. pose proof (pow2_pos h) as Hph.
    assert (0 < l') as Hl' by nia.
    assert (Hh : h <= log).
    { apply Nat.lt_succ_r. apply (Nat.pow_lt_mono_r_iff 2); [lia|]. rewrite Nat.pow_succ_r'. nia. }
    assert (Hn : node h l') by (split; [exact Hh|lia]).
    assert (Ha : forall j x, node j x -> anc h l' j x -> on_path l0 j x).
    { intros j x Hx [Hj ->]. split; [lia|]. symmetry. apply under.
      destruct (anc_range h l' j Hj) as [A1 A2].
      apply Nat.odd_spec in Hodd as [q ->]. replace ((2 * q + 1) / 2) with q in * by (apply (Nat.div_unique _ _ _ 1); lia).
      replace (2 * q + 1 - 1) with (2 * q) in * by lia. nia. }
    rewrite (RT_read s A M all _ h l' HR Hn I Ha). cbn [mbind res_bind].
    pose proof (node_hi _ _ Hn) as Hhi.
    assert (Hop : opc (Pr A l0 (l' * 2 ^ h)) (Pr A (l' * 2 ^ h) ((l' + 1) * 2 ^ h)) = Ok (op (Pr A l0 (l' * 2 ^ h)) (Pr A (l' * 2 ^ h) ((l' + 1) * 2 ^ h)))).
    { apply AO. rewrite <- Pr_app by nia. apply HA; nia. }
    rewrite !Hop. cbn [mbind res_bind].
    destruct (g (op (Pr A l0 (l' * 2 ^ h)) (Pr A (l' * 2 ^ h) ((l' + 1) * 2 ^ h)))) eqn:Hg; cbn [negb].
    - rewrite <- Pr_app in Hg |- * by nia.
      destruct (Nat.eqb_spec (lowbit (l' + 1)) (l' + 1)) as [Hp|Hnp].
      + eexists. split; [reflexivity|]. cbn. exists (on_path l0). split; [exact HR|]. left. split; [reflexivity|].
        destruct (lowbit_eq_pow2 (l' + 1)) as [j Hj]; [lia|exact Hp|].
        assert ((l' + 1) * 2 ^ h = 2 * size) as E; [|rewrite <- E; exact Hg].
        assert (size < (l' + 1) * 2 ^ h) as Hgt by nia.
        rewrite Hj in *. rewrite <- Nat.pow_add_r in *.
        assert (log < j + h) as G1 by (apply (Nat.pow_lt_mono_r_iff 2); [lia|exact Hgt]).
        assert (j + h <= Datatypes.S log) as G2 by (apply (Nat.pow_le_mono_r_iff 2); [lia|]; rewrite Nat.pow_succ_r'; lia).
        replace (j + h) with (Datatypes.S log) by lia. rewrite Nat.pow_succ_r'. reflexivity.
      + eexists. split; [reflexivity|]. cbn.
        assert ((l' + 1) * 2 ^ h <> 2 * size) as Hne2.
        { intros E. apply Hnp. rewrite (size_split h Hh), Nat.mul_assoc in E.
          apply Nat.mul_cancel_r in E; [|lia]. rewrite E, <- Nat.pow_succ_r'. apply lowbit_pow2. }
        exists (2 * size - (l' + 1) * 2 ^ h). split; [nia|]. split; [reflexivity|].
        exists h. split; [nia|]. split; [nia|]. split; [nia|].
        split; [right; split; [rewrite Nat.add_1_r, Nat.even_succ; exact Hodd|]|].
        { replace (l' + 1 - 2) with (l' - 1) by lia. exact Hpar. }
        split; [reflexivity|exact Hg].
    - destruct (descend_right_ok s A M _ g l' h _ l0 HA HM ltac:(lia) HR Hn Ha H3 eq_refl H5 Hg) as (s' & r & C' & -> & HR' & Hpost).
      cbn [mbind res_bind]. eexists. split; [reflexivity|]. cbn. exists C'. split; [exact HR'|]. right. exact Hpost.
  Qed.

  Lemma descend_left_ok s A M C g r h sm r0 : GA A -> GH M -> r0 <= 2 * size -> RT s A M all C -> node h r ->
    (forall j x, node j x -> anc h r j x -> C j x) -> (r + 1) * 2 ^ h <= r0 ->
    sm = Pr A ((r + 1) * 2 ^ h) r0 -> g sm = true -> g (op (Pr A (r * 2 ^ h) ((r + 1) * 2 ^ h)) sm) = false ->
    exists s' l C', ltc_descend_left opc idm mapc compc size g s r sm = Ok (s', l) /\ RT s' A M all C' /\
      0 < l /\ size + l <= r0 /\ g (Pr A (size + l) r0) = true /\ g (Pr A (size + l - 1) r0) = false.
  Proof.
    intros HA HM Hsz HR Hn Ha Hr0 Hsm Ht Hf. unfold ltc_descend_left.
    match goal with |- context [rloop _ ?st _] => set (step := st) end.
    destruct (rloop_inv_idx
      (fun h '(s, r, sm) => exists C, RT s A M all C /\ node h r /\ (forall j x, node j x -> anc h r j x -> C j x) /\
         (r + 1) * 2 ^ h <= r0 /\ sm = Pr A ((r + 1) * 2 ^ h) r0 /\ g sm = true /\
         g (op (Pr A (r * 2 ^ h) ((r + 1) * 2 ^ h)) sm) = false)
      (fun '(s, r) => exists C, RT s A M all C /\ leaf r /\ r + 1 <= r0 /\ g (Pr A (r + 1) r0) = true /\ g (Pr A r r0) = false)
      step) with (fuel := size + 1) (m := h) (s := (s, r, sm)) as ([s' r'] & E & C' & HR' & Hl' & H1 & H2 & H3).
    - clear s C r h sm HR Hn Ha Hr0 Hsm Ht Hf.
      intros h [[s r] sm] (C & HR & Hn & Ha & Hr0 & -> & Ht & Hf). unfold step.
      destruct h as [|h].
      + assert (~ r < size) by (intros H; apply (node_inner _ _ Hn) in H; lia).
        destruct (Nat.ltb_spec r size); [lia|]. eexists. split; [reflexivity|]. cbn.
        rewrite Nat.pow_0_r, !Nat.mul_1_r in *. exists C. split; [exact HR|].
        pose proof (node_lt _ _ Hn). split; [unfold leaf; lia|]. split; [exact Hr0|]. split; [exact Ht|].
        rewrite (Pr_app A r (r + 1)) by lia. exact Hf.
      + assert (r < size) as Hls by (apply (node_inner _ _ Hn); lia).
        destruct (Nat.ltb_spec r size); [|lia].
        destruct (RT_push_down s A M C h r HA HM HR Hn Ha) as (s1 & C1 & -> & HR1 & Ha1). cbn [mbind res_bind].
        rewrite (RT_read s1 A M all C1 h (2 * r + 1) HR1 (node_right _ _ Hn) I (Ha1 _ (or_intror eq_refl))). cbn [mbind res_bind].
        pose proof (pow2_pos h) as Hph. rewrite Nat.pow_succ_r' in *.
        replace (r * (2 * 2 ^ h)) with (2 * r * 2 ^ h) in * by lia.
        replace ((r + 1) * (2 * 2 ^ h)) with ((2 * r + 1 + 1) * 2 ^ h) in * by lia.
        assert (Hlo : size <= (2 * r + 1) * 2 ^ h) by (destruct (node_right _ _ Hn) as (_ & Hlo & _); exact Hlo).
        rewrite AO by (rewrite <- Pr_app by nia; apply HA; nia). cbn [mbind res_bind].
        rewrite <- Pr_app by nia.
        destruct (g (Pr A ((2 * r + 1) * 2 ^ h) r0)) eqn:Hg.
        * rewrite nsub_ok by lia. cbn [mbind res_bind]. replace (2 * r + 1 - 1) with (2 * r) by lia.
          eexists; split; [reflexivity|]; cbn; exists h; split; [lia|]; exists C1; split; [exact HR1|].
          split; [apply node_left; exact Hn|]. split; [apply Ha1; auto|]. split; [nia|]. split; [reflexivity|].
          split; [exact Hg|]. rewrite <- Pr_app by nia. rewrite <- Hf. rewrite <- Pr_app by nia. reflexivity.
        * eexists; split; [reflexivity|]; cbn; exists h; split; [lia|]; exists C1; split; [exact HR1|].
          split; [apply node_right; exact Hn|]. split; [apply Ha1; auto|]. split; [nia|]. split; [reflexivity|].
          split; [exact Ht|]. rewrite <- Pr_app by nia. exact Hg.
    - exists C. auto 10.
    - apply height_lt. apply Hn.
    - rewrite E. cbn [mbind res_bind]. unfold leaf in Hl'. rewrite nsub_ok by lia. cbn [mbind res_bind].
      exists s', (r' + 1 - size), C'. split; [reflexivity|]. split; [exact HR'|].
      replace (size + (r' + 1 - size)) with (r' + 1) by lia. replace (r' + 1 - 1) with r' by lia.
      split; [lia|]. auto.
  Qed.

  Lemma min_left_ok s A M g r0 : GA A -> GH M -> RT s A M all (on_path (r0 - 1)) -> leaf (r0 - 1) -> g e = true ->
    exists s' l C', rloop (2 * size + 1) (ltc_min_left_step opc idm mapc compc size g) (s, r0, e) = Ok (s', l) /\ RT s' A M all C' /\
      ((l = 0 /\ g (Pr A size r0) = true) \/
       (0 < l /\ size + l <= r0 /\ g (Pr A (size + l) r0) = true /\ g (Pr A (size + l - 1) r0) = false)).
  Proof.
    intros HA HM HR Hl0 Hge. unfold leaf in Hl0. pose proof (pow2_pos log) as Hsz.
    destruct (rloop_inv_idx
      (fun m '(s', r, sm) => s' = s /\ exists h, m + size = r * 2 ^ h /\ 0 < m /\ h <= log /\
          r * 2 ^ h <= r0 /\ (r0 = r * 2 ^ h \/ (Nat.even r = true /\ r0 <= (r + 2) * 2 ^ h)) /\
          sm = Pr A (r * 2 ^ h) r0 /\ g sm = true)
      (fun '(s', l) => exists C', RT s' A M all C' /\
        ((l = 0 /\ g (Pr A size r0) = true) \/
         (0 < l /\ size + l <= r0 /\ g (Pr A (size + l) r0) = true /\ g (Pr A (size + l - 1) r0) = false)))
      (ltc_min_left_step opc idm mapc compc size g)) with (fuel := 2 * size + 1) (m := r0 - size) (s := (s, r0, e))
      as ([s' r] & E & C' & H); [|split; [reflexivity|]; exists 0; rewrite Nat.pow_0_r, Nat.mul_1_r|lia|].
    2:{ split; [lia|]. split; [lia|]. split; [lia|]. split; [lia|]. split; [auto|]. rewrite Pr_nil by lia. auto. }
    2:{ exists s', r, C'. auto. }
    intros m [[s' r] sm] (-> & h & H1 & H2 & Hh & H3 & H4 & -> & H5). unfold ltc_min_left_step.
    assert (1 < r) as Hr.
    { assert (2 ^ h <= size) by (apply Nat.pow_le_mono_r; lia). nia. }
    rewrite nsub_ok by lia. cbn [mbind res_bind].
    destruct (strip_odd_spec (r - 1) ltac:(lia)) as (k & r' & -> & Hrr & Hr' & Hev). cbn [mbind res_bind].
    replace (r - 1 + 1) with r in Hrr by lia.
    assert (Hpar : r' = 1 \/ r0 <= (r' + 2) * 2 ^ (k + h)).
    { rewrite Nat.pow_add_r. destruct H4 as [->|[Hrev H4]]; [right; subst r; nia|].
      destruct k as [|k].
      { rewrite Nat.pow_0_r, Nat.mul_1_r in Hrr. subst r. rewrite Nat.add_1_r, Nat.even_succ in Hrev.
        destruct Hev as [->|Hev]; [left; reflexivity|]. rewrite <- Nat.negb_even, Hev in Hrev. discriminate. }
      right. rewrite Nat.pow_succ_r' in *. pose proof (pow2_pos k).
      etransitivity; [exact H4|].
      rewrite Nat.mul_assoc. apply Nat.mul_le_mono_r. subst r. nia. }
    assert (r * 2 ^ h = (r' + 1) * 2 ^ (k + h)) as E by (rewrite Nat.pow_add_r; nia).
    rewrite E in *. clear E H4. generalize dependent (k + h). clear k h Hh r Hr Hrr.
    intros h H1 H3 H5 Hpar. pose proof (pow2_pos h) as Hph.
    assert (h <= log) as Hh.
    { apply (Nat.pow_le_mono_r_iff 2); [lia|]. nia. }
    assert (size <= r' * 2 ^ h) as Hlo.
    { pose proof (size_split h Hh) as Hq.
      assert (2 ^ (log - h) < r' + 1) by (apply (Nat.mul_lt_mono_pos_r (2 ^ h)); lia).
      rewrite Hq. apply Nat.mul_le_mono_r. lia. }
    assert (Hn : node h r') by (split; [exact Hh|]; split; [exact Hlo|nia]).
    assert (Ha : forall j x, node j x -> anc h r' j x -> on_path (r0 - 1) j x).
    { intros j x Hx [Hj ->]. split; [lia|]. symmetry. apply under.
      destruct (anc_range h r' j Hj) as [A1 A2].
      destruct Hev as [->|Hev].
      - exfalso. destruct Hx as (Hjl & Hx & _). rewrite Nat.div_small in Hx; [lia|].
        apply Nat.pow_gt_1; lia.
      - destruct Hpar as [->|Hpar]; [discriminate Hev|].
        apply Nat.even_spec in Hev as [q ->]. replace (2 * q / 2) with q in * by (symmetry; rewrite Nat.mul_comm; apply Nat.div_mul; lia).
        nia. }
    rewrite (RT_read s A M all _ h r' HR Hn I Ha). cbn [mbind res_bind].
    assert (Hop : opc (Pr A (r' * 2 ^ h) ((r' + 1) * 2 ^ h)) (Pr A ((r' + 1) * 2 ^ h) r0) = Ok (op (Pr A (r' * 2 ^ h) ((r' + 1) * 2 ^ h)) (Pr A ((r' + 1) * 2 ^ h) r0))).
    { apply AO. rewrite <- Pr_app by nia. apply HA; nia. }
    rewrite !Hop. cbn [mbind res_bind].
    destruct (g (op (Pr A (r' * 2 ^ h) ((r' + 1) * 2 ^ h)) (Pr A ((r' + 1) * 2 ^ h) r0))) eqn:Hg; cbn [negb].
    - rewrite <- Pr_app in Hg |- * by nia.
      destruct (Nat.eqb_spec (lowbit r') r') as [Hp|Hnp].
      + eexists. split; [reflexivity|]. cbn. eexists. split; [exact HR|]. left. split; [reflexivity|].
        destruct (lowbit_eq_pow2 r') as [j Hj]; [lia|exact Hp|].
        assert (r' * 2 ^ h = size) as E; [|rewrite <- E; exact Hg].
        assert (r' * 2 ^ h < 2 * size) as Hgt by nia.
        rewrite Hj in *. rewrite <- Nat.pow_add_r in *.
        assert (log <= j + h) as G1 by (apply (Nat.pow_le_mono_r_iff 2); [lia|lia]).
        assert (j + h < Datatypes.S log) as G2 by (apply (Nat.pow_lt_mono_r_iff 2); [lia|]; rewrite Nat.pow_succ_r'; lia).
        f_equal. lia.
      + eexists. split; [reflexivity|]. cbn.
        assert (r' * 2 ^ h <> size) as Hne2.
        { intros E. apply Hnp. rewrite (size_split h Hh) in E.
          apply Nat.mul_cancel_r in E; [|lia]. rewrite E. apply lowbit_pow2. }
        exists (r' * 2 ^ h - size). split; [nia|]. split; [reflexivity|].
        exists h. split; [nia|]. split; [nia|]. split; [lia|]. split; [nia|].
        split; [right|].
        { destruct Hev as [->|Hev].
          - exfalso. apply Hne2. assert (h = log) as ->; [|lia].
            apply Nat.le_antisymm; [exact Hh|]. apply (Nat.pow_le_mono_r_iff 2); lia.
          - split; [exact Hev|]. destruct Hpar as [->|Hpar]; [discriminate Hev|exact Hpar]. }
        split; [reflexivity|exact Hg].
    - destruct (descend_left_ok s A M _ g r' h _ r0 HA HM ltac:(lia) HR Hn Ha H3 eq_refl H5 Hg) as (s' & l & C' & -> & HR' & Hpost).
      cbn [mbind res_bind]. eexists. split; [reflexivity|]. cbn. exists C'. split; [exact HR'|]. right. exact Hpost.
  Qed.
End Good.
