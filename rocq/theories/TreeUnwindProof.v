(** Proofs about Segtree with caught panics of the operation. *)
From Verif Require Import Prelude UtilModel UtilProof ArraySpec PartialOps SegtreeSpec SegtreeModel SegtreeProof SegtreeChkModel SegtreeChkProof FenwickSpec Unwind TreeUnwindSpec TreeUnwindModel.

Section cells.
  Context {S : Type} (e : S) (op : S -> S -> S) (L : monoid_laws e op).
  Implicit Types (C : list (list S)).
  Definition R C lo hi v : Prop := some_prod e op (slice C lo hi) v.

  Lemma R_nil C lo hi : hi <= lo -> R C lo hi e.
  Proof. intros H. exists []. rewrite slice_nil by exact H. split; [constructor|reflexivity]. Qed.
  Lemma R_app C lo m hi v w : lo <= m <= hi -> R C lo m v -> R C m hi w -> R C lo hi (op v w).
  Proof.
    intros H (ys & Y1 & ->) (zs & Z1 & ->). exists (ys ++ zs). split; [|symmetry; apply (mprod_app _ _ L)].
    unfold choice. rewrite <- (slice_app C lo m hi) by exact H. apply Forall2_app; assumption.
  Qed.
  Lemma R_single C i c y : C !! i = Some c -> y ∈ c -> R C i (i + 1) y.
  Proof. intros H Hy. exists [y]. rewrite (slice_single C i c H). split; [constructor; [exact Hy|constructor]|symmetry; apply (mprod_single _ _ L)]. Qed.
  Lemma R_mono C C' lo hi v : length C = length C' -> hi <= length C ->
    (forall i c c', lo <= i < hi -> C !! i = Some c -> C' !! i = Some c' -> c ⊆ c') -> R C lo hi v -> R C' lo hi v.
  Proof.
    intros Hlen Hhi Hsub (ys & Hc & ->). exists ys. split; [|reflexivity]. unfold choice in *. apply Forall2_same_length_lookup in Hc as [H1 H2].
    apply Forall2_same_length_lookup. split; [rewrite <- H1, !slice_length by lia; reflexivity|]. intros i c' y Hc' Hy.
    assert (lo + i < hi) as Hi.
    { destruct (decide (lo + i < hi)) as [?|?]; [assumption|]. apply lookup_lt_Some in Hc'. rewrite slice_length in Hc' by lia. lia. }
    rewrite slice_lookup in Hc' by exact Hi. destruct (lookup_lt_is_Some_2 C (lo + i)) as [c Hcc]; [lia|].
    eapply Hsub; [|exact Hcc|exact Hc'|]; [lia|]. eapply H2; [|exact Hy]. rewrite slice_lookup by exact Hi. exact Hcc.
  Qed.
End cells.

Section segtree.
  Context {S : Type} (e : S) (op : S -> S -> S) (L : monoid_laws e op) (opc : S -> S -> res S) (O : or_panics op opc).
  Implicit Types (C : list (list S)) (d : list S).
  Local Notation R := (R e op).

  Definition padc (size : nat) (cells : list (list S)) : list (list S) := replicate size [] ++ cells ++ replicate (size - length cells) [e].
  Lemma padc_length size cells : length cells <= size -> length (padc size cells) = 2 * size.
  Proof. intros H. unfold padc. rewrite !app_length, !replicate_length. lia. Qed.
  Lemma padc_leaf size cells i : i < length cells -> padc size cells !! (size + i) = cells !! i.
  Proof.
    intros Hi. unfold padc. rewrite lookup_app_r by (rewrite replicate_length; lia). rewrite replicate_length. replace (size + i - size) with i by lia.
    apply lookup_app_l. exact Hi.
  Qed.
  Lemma padc_other size cells cells' i p : length cells' = length cells -> (forall j, j <> p -> cells' !! j = cells !! j) -> i <> size + p ->
    padc size cells' !! i = padc size cells !! i.
  Proof.
    intros Hl H Hi. unfold padc. rewrite Hl. destruct (decide (i < size)).
    - rewrite !lookup_app_l by (rewrite replicate_length; lia). reflexivity.
    - rewrite !(lookup_app_r (replicate size [])) by (rewrite replicate_length; lia). rewrite replicate_length. destruct (decide (i - size < length cells)).
      + rewrite !lookup_app_l by lia. apply H. lia.
      + rewrite !lookup_app_r by lia. rewrite Hl. reflexivity.
  Qed.

  Definition nodeR size C d k : Prop := forall h, size <= k * 2 ^ h -> (k + 1) * 2 ^ h <= 2 * size ->
    exists v, d !! k = Some v /\ R C (k * 2 ^ h) ((k + 1) * 2 ^ h) v.

  Record CI (t : segtree S) (cells : list (list S)) : Prop := {
    ci_n : sg_n t = length cells;
    ci_size : sg_size t = 2 ^ sg_log t;
    ci_le : sg_n t <= sg_size t;
    ci_len : length (sg_d t) = 2 * sg_size t;
    ci_head : forall i c, cells !! i = Some c -> exists x c', c = x :: c' /\ sg_d t !! (sg_size t + i) = Some x;
    ci_node : forall k, nodeR (sg_size t) (padc (sg_size t) cells) (sg_d t) k }.

  Lemma choice_singletons (a : list S) : choice (map (fun x => [x]) a) a.
  Proof. unfold choice. induction a as [|x a IH]; constructor; [left|exact IH]. Qed.

  Lemma CI_start t a : Inv e op t a -> CI t (map (fun x => [x]) a).
  Proof.
    intros I. pose proof (inv_n _ _ _ _ I) as Hn. split.
    - rewrite map_length. exact Hn.
    - apply (inv_size _ _ _ _ I).
    - apply (inv_le _ _ _ _ I).
    - apply (inv_len _ _ _ _ I).
    - intros i c Hc. change (map ?f ?l) with (f <$> l) in Hc. rewrite list_lookup_fmap in Hc. destruct (a !! i) as [x|] eqn:Ex; [|discriminate]. injection Hc as <-.
      exists x, []. split; [reflexivity|]. rewrite (inv_leaf _ _ _ _ I); [exact Ex|]. rewrite Hn. eapply lookup_lt_Some; eauto.
    - intros k h H1 H2. exists (mprod e op (slice (sg_d t) (k * 2 ^ h) ((k + 1) * 2 ^ h))). split; [apply (node_prod e op L t a I); assumption|].
      exists (slice (sg_d t) (k * 2 ^ h) ((k + 1) * 2 ^ h)). split; [|reflexivity]. pose proof (inv_le _ _ _ _ I) as Hle.
      unfold choice. apply Forall2_same_length_lookup. split.
      { rewrite !slice_length; [reflexivity|rewrite (inv_len _ _ _ _ I); lia|rewrite padc_length; [lia|rewrite map_length; lia]]. }
      intros i c y Hc Hy. assert (k * 2 ^ h + i < (k + 1) * 2 ^ h) as Hi.
      { apply lookup_lt_Some in Hy. rewrite slice_length in Hy by (rewrite (inv_len _ _ _ _ I); lia). lia. }
      rewrite slice_lookup in Hc by exact Hi. rewrite slice_lookup in Hy by exact Hi. set (j := k * 2 ^ h + i) in *. replace j with (sg_size t + (j - sg_size t)) in Hc, Hy by lia.
      destruct (decide (j - sg_size t < sg_n t)) as [Hj|Hj].
      + rewrite padc_leaf in Hc by (rewrite map_length; lia). change (map ?f ?l) with (f <$> l) in Hc. rewrite list_lookup_fmap in Hc.
        rewrite (inv_leaf _ _ _ _ I) in Hy by exact Hj. rewrite Hy in Hc. injection Hc as <-. left.
      + rewrite (inv_pad _ _ _ _ I) in Hy by lia. injection Hy as <-. unfold padc in Hc. rewrite lookup_app_r in Hc by (rewrite replicate_length; lia).
        rewrite lookup_app_r in Hc by (rewrite replicate_length, map_length; lia). apply lookup_replicate in Hc as [-> _]. left.
  Qed.

  (** ** set *)
  Lemma update_node size C d k : 1 <= k < size -> length d = 2 * size -> nodeR size C d (2 * k) -> nodeR size C d (2 * k + 1) ->
    match stc_update opc d k with
    | Ok d' => length d' = 2 * size /\ nodeR size C d' k /\ forall j, j <> k -> d' !! j = d !! j
    | Panic => True
    | Diverge => False
    end.
  Proof.
    intros Hk Hlen H1 H2. unfold stc_update. destruct (vget_lt d (2 * k)) as (x & -> & Hx); [lia|]. destruct (vget_lt d (2 * k + 1)) as (y & -> & Hy); [lia|].
    cbn [mbind res_bind]. destruct (O x y) as [->| ->]; cbn [mbind res_bind]; [|exact I]. rewrite vset_ok by lia. split; [rewrite insert_length; exact Hlen|]. split.
    - intros h Hlo Hhi. rewrite list_lookup_insert by lia. eexists. split; [reflexivity|]. destruct h as [|h]; [rewrite Nat.pow_0_r in Hlo; lia|]. rewrite Nat.pow_succ_r' in Hlo, Hhi |- *.
      destruct (H1 h) as (x' & Ex & Rx); [nia|nia|]. destruct (H2 h) as (y' & Ey & Ry); [nia|nia|]. rewrite Hx in Ex. rewrite Hy in Ey. injection Ex as <-. injection Ey as <-.
      replace (k * (2 * 2 ^ h)) with (2 * k * 2 ^ h) by nia. replace ((k + 1) * (2 * 2 ^ h)) with ((2 * k + 1 + 1) * 2 ^ h) by nia.
      apply (R_app e op L) with (m := (2 * k + 1) * 2 ^ h); [nia|exact Rx|exact Ry].
    - intros j Hj. apply list_lookup_insert_ne. congruence.
  Qed.

  Lemma nodeR_frame size C d d' k : nodeR size C d k -> d' !! k = d !! k -> nodeR size C d' k.
  Proof. intros H E h H1 H2. rewrite E. apply H; assumption. Qed.

  Lemma set_ok t cells p x : CI t cells ->
    match stu_set opc p x t with
    | Ok (t', Some _) => p < length cells /\ CI t' (<[p := [x]]> cells)
    | Ok (t', None) => CI t' (alter (cons x) p cells)
    | _ => False
    end.
  Proof.
    intros I. pose proof I as [Hn Hsz Hle Hlen Hhead Hnode]. unfold stu_set. destruct (Nat.ltb_spec p (sg_n t)) as [Hp|Hp].
    2:{ rewrite (ubind_unwound _ _ _ t) by (apply uread_panic; rewrite (proj2 (Nat.ltb_ge _ _) Hp); reflexivity).
        assert (alter (cons x) p cells = cells) as ->; [|exact I]. apply list_eq. intros i. destruct (decide (i = p)) as [->|Hne].
        - rewrite list_lookup_alter, lookup_ge_None_2 by lia. reflexivity.
        - apply list_lookup_alter_ne. auto. }
    rewrite (ubind_ok _ _ _ t tt) by (apply uread_ok; rewrite (proj2 (Nat.ltb_lt _ _) Hp); reflexivity).
    rewrite (ubind_ok _ _ _ t (p + sg_size t)) by (apply uread_ok; reflexivity).
    set (q := p + sg_size t). set (size := sg_size t) in *. set (d0 := <[q := x]> (sg_d t)).
    rewrite (ubind_ok _ _ _ (with_d t d0) tt) by (apply uwrite_ok; rewrite vset_ok by (unfold q; fold size; lia); reflexivity).
    rewrite (ubind_ok _ _ _ (with_d t d0) (sg_log t)) by (apply uread_ok; reflexivity).
    set (C1 := padc size (alter (cons x) p cells)). set (C2 := padc size (<[p := [x]]> cells)).
    destruct (lookup_lt_is_Some_2 cells p) as [c0 Hc0]; [lia|].
    assert (forall j, j <> p -> alter (cons x) p cells !! j = cells !! j) as Ha by (intros j Hj; apply list_lookup_alter_ne; auto).
    assert (forall j, j <> p -> <[p := [x]]> cells !! j = cells !! j) as Hi by (intros j Hj; apply list_lookup_insert_ne; auto).
    assert (C1 !! q = Some (x :: c0)) as HC1.
    { unfold C1, q. rewrite Nat.add_comm. rewrite padc_leaf by (rewrite alter_length; lia). rewrite list_lookup_alter, Hc0. reflexivity. }
    assert (C2 !! q = Some [x]) as HC2.
    { unfold C2, q. rewrite Nat.add_comm. rewrite padc_leaf by (rewrite insert_length; lia). apply list_lookup_insert. lia. }
    assert (forall (C : list (list S)) c, C !! q = Some c -> x ∈ c -> length C = 2 * size -> (forall i, i <> q -> C !! i = padc size cells !! i) ->
      forall k, (k = q \/ forall j, 1 <= j -> k <> q / 2 ^ j) -> nodeR size C d0 k) as Hstart.
    { intros C c Hc Hx HlC Hoth k Hk h H1 H2. destruct (decide (k = q)) as [->|Hkq].
      - assert (h = 0) as ->. { destruct h as [|h]; [reflexivity|]. rewrite Nat.pow_succ_r' in H2. pose proof (pow2_pos h). unfold q in H2. fold size in H2. nia. }
        unfold d0. rewrite list_lookup_insert by (unfold q; fold size; lia). exists x. split; [reflexivity|]. rewrite Nat.pow_0_r, !Nat.mul_1_r. eapply R_single; eauto.
      - destruct Hk as [?|Hk]; [contradiction|]. destruct (Hnode k h H1 H2) as (v & Hv & Rv). exists v. unfold d0. rewrite list_lookup_insert_ne by auto. split; [exact Hv|].
        unfold TreeUnwindProof.R in *. rewrite (slice_ext C (padc size cells)); [exact Rv|]. intros i Hi'. apply Hoth. intros ->.
        assert (k = q / 2 ^ h) as E. { apply (Nat.div_unique _ _ _ (q - k * 2 ^ h)); nia. }
        destruct h as [|h]; [rewrite Nat.pow_0_r, Nat.div_1_r in E; contradiction|]. apply (Hk (Datatypes.S h)); [lia|exact E]. }
    assert (forall k, nodeR size C1 d0 k) as HA0.
    { intros k. destruct (decide (k = q)) as [->|Hkq].
      - apply (Hstart C1 (x :: c0)); [exact HC1|left| |intros i Hi'; apply (padc_other size cells _ i p); [apply alter_length|exact Ha|unfold q in Hi'; lia]|auto].
        unfold C1. apply padc_length. rewrite alter_length. lia.
      - intros h H1 H2. destruct (Hnode k h H1 H2) as (v & Hv & Rv). exists v. unfold d0. rewrite list_lookup_insert_ne by auto. split; [exact Hv|].
        eapply R_mono; [| | |exact Rv].
        + unfold C1. rewrite !padc_length; [reflexivity|rewrite alter_length; lia|lia].
        + rewrite padc_length by lia. exact H2.
        + intros i c c' _ E1 E2. destruct (decide (i = q)) as [->|Hiq].
          * rewrite HC1 in E2. injection E2 as <-. unfold q in E1. rewrite Nat.add_comm in E1. rewrite padc_leaf in E1 by lia. rewrite Hc0 in E1. injection E1 as <-.
            intros z Hz. right. exact Hz.
          * unfold C1 in E2. rewrite (padc_other size cells _ i p) in E2; [|apply alter_length|exact Ha|unfold q in Hiq; lia]. rewrite E1 in E2. injection E2 as <-. auto. }
    set (QB := fun i k => forall j, i <= j -> k <> q / 2 ^ j).
    set (body := fun (i : nat) (_ : unit) => uwrite (fun t0 : segtree S => d ← stc_update opc (sg_d t0) (q / 2 ^ i); Ok (with_d t0 d))).
    assert (match ufor (range_incl 1 (sg_log t)) body tt (with_d t d0) with
      | Ok (t', Some _) => exists d, t' = with_d t d /\ length d = 2 * size /\ (forall j, size <= j -> d !! j = d0 !! j) /\ (forall k, nodeR size C1 d k) /\
           (forall k, QB (length (range_incl 1 (sg_log t)) + 1) k -> nodeR size C2 d k)
      | Ok (t', None) => exists d, t' = with_d t d /\ length d = 2 * size /\ (forall j, size <= j -> d !! j = d0 !! j) /\ (forall k, nodeR size C1 d k)
      | _ => False end) as Hloop.
    { apply (ufor_inv (fun done _ t' => exists d, t' = with_d t d /\ length d = 2 * size /\ (forall j, size <= j -> d !! j = d0 !! j) /\ (forall k, nodeR size C1 d k) /\
           (forall k, QB (length done + 1) k -> nodeR size C2 d k))
        (fun t' => exists d, t' = with_d t d /\ length d = 2 * size /\ (forall j, size <= j -> d !! j = d0 !! j) /\ (forall k, nodeR size C1 d k))).
      - intros done i rest b s Es (d & -> & Hld & Hhi & HA & HB).
        assert (i = length done + 1 /\ i <= sg_log t) as [Ei Hil].
        { assert (range_incl 1 (sg_log t) !! length done = Some i) as E by (rewrite Es; apply list_lookup_middle; reflexivity).
          unfold range_incl in E. apply lookup_seq in E. lia. }
        rewrite <- Ei in HB. assert (1 <= q / 2 ^ i < size) as Hk.
        { pose proof (pow2_pos i). split.
          - apply Nat.div_le_lower_bound; [lia|]. rewrite Nat.mul_1_r. transitivity size; [rewrite Hsz; apply Nat.pow_le_mono_r; lia|unfold q; fold size; lia].
          - apply Nat.div_lt_upper_bound; [lia|]. assert (2 <= 2 ^ i) by (transitivity (2 ^ 1); [reflexivity|apply Nat.pow_le_mono_r; lia]). unfold q. fold size. nia. }
        set (k := q / 2 ^ i) in *.
        assert (forall j, i <= j -> q / 2 ^ j <= k) as Hdown.
        { intros j Hj. unfold k. replace j with (i + (j - i)) by lia. rewrite Nat.pow_add_r. pose proof (pow2_pos i). pose proof (pow2_pos (j - i)).
          rewrite <- Nat.div_div by lia. apply Nat.div_le_upper_bound; [lia|]. nia. }
        pose proof (update_node size C1 d k Hk Hld (HA _) (HA _)) as U1.
        assert (nodeR size C2 d (2 * k)) as B1 by (apply HB; intros j Hj E; specialize (Hdown j Hj); lia).
        assert (nodeR size C2 d (2 * k + 1)) as B2 by (apply HB; intros j Hj E; specialize (Hdown j Hj); lia).
        pose proof (update_node size C2 d k Hk Hld B1 B2) as U2.
        unfold body, uwrite. cbn [sg_d with_d]. fold k. destruct (stc_update opc d k) as [d'| |]; cbn [mbind res_bind].
        + destruct U1 as (V1 & V2 & V3). destruct U2 as (_ & V4 & _). exists d'. split; [reflexivity|]. split; [exact V1|]. split; [intros j Hj; rewrite V3 by lia; apply Hhi; exact Hj|]. split.
          * intros k'. destruct (decide (k' = k)) as [->|Hne]; [exact V2|]. apply (nodeR_frame size C1 d); [apply HA|apply V3; exact Hne].
          * rewrite app_length. cbn [length]. replace (length done + 1 + 1) with (i + 1) by lia. intros k' Hk'. destruct (decide (k' = k)) as [->|Hne]; [exact V4|].
            apply (nodeR_frame size C2 d); [|apply V3; exact Hne]. apply HB. intros j Hj. destruct (decide (j = i)) as [->|]; [exact Hne|]. apply Hk'. lia.
        + exists d. auto.
        + exact U1.
      - exists d0. split; [reflexivity|]. split; [unfold d0; rewrite insert_length; exact Hlen|]. split; [auto|]. split; [exact HA0|]. intros k Hk.
        apply (Hstart C2 [x]); [exact HC2|left| |intros i Hi'; apply (padc_other size cells _ i p); [apply insert_length|exact Hi|unfold q in Hi'; lia]|right; exact Hk].
        unfold C2. apply padc_length. rewrite insert_length. lia. }
    destruct (ufor (range_incl 1 (sg_log t)) body tt (with_d t d0)) as [[t' [u|]]| |]; [| |exact Hloop|exact Hloop].
    - destruct Hloop as (d & -> & Hld & Hhi & _ & HB). split; [lia|]. split; cbn [with_d sg_n sg_size sg_log sg_d].
      + rewrite insert_length. exact Hn.
      + exact Hsz.
      + exact Hle.
      + exact Hld.
      + intros i c Hc. fold size. rewrite Hhi by lia. unfold d0. destruct (decide (i = p)) as [->|Hne].
        * rewrite list_lookup_insert in Hc by lia. injection Hc as <-. exists x, []. split; [reflexivity|]. replace (size + p) with q by (unfold q; fold size; lia).
          apply list_lookup_insert. unfold q. fold size. lia.
        * rewrite list_lookup_insert_ne in Hc by auto. destruct (Hhead i c Hc) as (y & c' & -> & Hy). exists y, c'. split; [reflexivity|].
          rewrite list_lookup_insert_ne; [exact Hy|]. unfold q. fold size. lia.
      + intros k h H1 H2. apply HB; [|exact H1|exact H2]. intros j Hj E. unfold range_incl in Hj. rewrite seq_length in Hj.
        assert (q / 2 ^ j = 0) as E0; [|rewrite E0 in E; subst k; fold size in H1; pose proof (pow2_pos (sg_log t)); lia].
        apply Nat.div_small. apply Nat.lt_le_trans with (2 ^ Datatypes.S (sg_log t)).
        * rewrite Nat.pow_succ_r', <- Hsz. unfold q. fold size. lia.
        * apply Nat.pow_le_mono_r; lia.
    - destruct Hloop as (d & -> & Hld & Hhi & HA). split; cbn [with_d sg_n sg_size sg_log sg_d].
      + rewrite alter_length. exact Hn.
      + exact Hsz.
      + exact Hle.
      + exact Hld.
      + intros i c Hc. fold size. rewrite Hhi by lia. unfold d0. destruct (decide (i = p)) as [->|Hne].
        * rewrite list_lookup_alter, Hc0 in Hc. injection Hc as <-. exists x, c0. split; [reflexivity|]. replace (size + p) with q by (unfold q; fold size; lia).
          apply list_lookup_insert. unfold q. fold size. lia.
        * rewrite list_lookup_alter_ne in Hc by auto. destruct (Hhead i c Hc) as (y & c' & -> & Hy). exists y, c'. split; [reflexivity|].
          rewrite list_lookup_insert_ne; [exact Hy|]. unfold q. fold size. lia.
      + exact HA.
  Qed.

  (** ** Reads *)
  Lemma padc_slice t cells l r : CI t cells -> r <= length cells -> slice (padc (sg_size t) cells) (sg_size t + l) (sg_size t + r) = slice cells l r.
  Proof. intros I Hr. symmetry. apply slice_shift. intros i Hi. symmetry. apply padc_leaf. lia. Qed.

  Lemma get_cells t cells p : CI t cells ->
    st_get t p = match cells !! p with Some (x :: _) => Ok x | Some [] => Panic | None => Panic end.
  Proof.
    intros I. unfold st_get. destruct (Nat.ltb_spec p (sg_n t)) as [Hp|Hp]; cbn [rassert mbind res_bind].
    - destruct (lookup_lt_is_Some_2 cells p) as [c Hc]; [rewrite <- (ci_n _ _ I); exact Hp|]. destruct (ci_head _ _ I p c Hc) as (x & c' & -> & Hx).
      rewrite Hc. apply vget_ok. rewrite Nat.add_comm. exact Hx.
    - rewrite lookup_ge_None_2; [reflexivity|]. rewrite <- (ci_n _ _ I). exact Hp.
  Qed.

  Lemma all_prod_cells t cells : CI t cells -> exists v, st_all_prod t = Ok v /\ some_prod e op cells v.
  Proof.
    intros I. pose proof (ci_n _ _ I) as Hn. pose proof (ci_le _ _ I) as Hle. pose proof (ci_size _ _ I) as Hs. unfold st_all_prod.
    destruct (ci_node _ _ I 1 (sg_log t)) as (v & Hv & Rv); [lia|lia|]. exists v. split; [apply vget_ok; exact Hv|].
    destruct Rv as (ys & Hc & ->). unfold choice in Hc. rewrite <- Hs in Hc.
    replace (1 * sg_size t) with (sg_size t + 0) in Hc by lia. replace ((1 + 1) * sg_size t) with (sg_size t + sg_size t) in Hc by lia.
    rewrite <- (slice_app _ _ (sg_size t + length cells)) in Hc by lia. rewrite (padc_slice t cells 0 (length cells) I) in Hc by lia. rewrite slice_full in Hc.
    apply Forall2_app_inv_l in Hc as (y1 & y2 & H1 & H2 & ->). exists y1. split; [exact H1|]. rewrite (mprod_app _ _ L).
    assert (mprod e op y2 = e) as ->; [|apply (ml_idr _ _ L)].
    assert (slice (padc (sg_size t) cells) (sg_size t + length cells) (sg_size t + sg_size t) = replicate (sg_size t - length cells) [e]) as E.
    { unfold padc, slice. rewrite app_assoc, drop_app_alt by (rewrite app_length, replicate_length; lia). apply take_ge. rewrite replicate_length. lia. }
    rewrite E in H2. clear - H2 L. revert y2 H2. induction (sg_size t - length cells) as [|m IH]; intros y2 H2; cbn in H2; inversion H2 as [|? y ? ? Hy Hrest]; subst; [reflexivity|].
    apply elem_of_list_singleton in Hy as ->. cbn. change (foldr op e ?l) with (mprod e op l). rewrite (IH _ Hrest). apply (ml_idl _ _ L).
  Qed.

  Lemma prod_cells t cells l r : CI t cells ->
    match stc_prod e opc t l r with
    | Ok v => l <= r <= length cells /\ some_prod e op (slice cells l r) v
    | Panic => True
    | Diverge => False
    end.
  Proof.
    intros I. unfold stc_prod. pose proof (ci_n _ _ I) as Hn. pose proof (ci_le _ _ I) as Hle. pose proof (ci_size _ _ I) as Hs. pose proof (pow2_pos (sg_log t)) as Hsz. rewrite <- Hs in Hsz.
    destruct (Nat.leb_spec l r) as [Hlr|]; cbn [andb rassert mbind res_bind]; [|exact Logic.I]. destruct (Nat.leb_spec r (sg_n t)) as [Hr|]; cbn [andb rassert mbind res_bind]; [|exact Logic.I].
    set (size := sg_size t) in *. set (C := padc size cells).
    assert (forall fuel l' r' sml smr h, r' < fuel -> size + l <= l' * 2 ^ h -> l' <= r' -> r' * 2 ^ h <= size + r ->
      R C (size + l) (l' * 2 ^ h) sml -> R C (r' * 2 ^ h) (size + r) smr ->
      match rloop fuel (stc_prod_step opc (sg_d t)) (l', r', sml, smr) with
      | Ok (a, b) => exists m, size + l <= m <= size + r /\ R C (size + l) m a /\ R C m (size + r) b
      | Panic => True
      | Diverge => False
      end) as G.
    { induction fuel as [|fuel IH]; intros l' r' sml smr h Hf H1 H2 H3 R1 R2; [lia|]. cbn [rloop]. pose proof (pow2_pos h) as Hph.
      let a := constr:(stc_prod_step opc (sg_d t) (l', r', sml, smr)) in let b := eval cbv beta iota delta [stc_prod_step] in a in change a with b.
      destruct (Nat.ltb_spec l' r') as [Hlt|Hge].
      2:{ cbn [mbind res_bind]. assert (l' = r') as -> by lia. exists (r' * 2 ^ h). split; [lia|]. auto. }
      assert (match (if Nat.odd l' then x ← vget (sg_d t) l'; y ← opc sml x; Ok (l' + 1, y) else Ok (l', sml)) with
        | Ok (l1, sml1) => Nat.even l1 = true /\ l' <= l1 <= r' /\ R C (size + l) (l1 * 2 ^ h) sml1
        | Panic => True | Diverge => False end) as HL.
      { destruct (Nat.odd l') eqn:Ho.
        - destruct (ci_node _ _ I l' h) as (v & Hv & Rv); [fold size; lia|fold size; nia|]. rewrite (vget_ok _ _ _ Hv). cbn [mbind res_bind].
          destruct (O sml v) as [->| ->]; cbn [mbind res_bind]; [|exact Logic.I]. split; [rewrite Nat.add_1_r, Nat.even_succ; exact Ho|]. split; [lia|].
          apply (R_app e op L) with (m := l' * 2 ^ h); [nia|exact R1|exact Rv].
        - split; [rewrite <- Nat.negb_odd, Ho; reflexivity|]. split; [lia|exact R1]. }
      destruct (if Nat.odd l' then _ else _) as [[l1 sml1]| |]; [|exact Logic.I|exact HL]. destruct HL as (He1 & Hl1 & R1'). cbn [mbind res_bind].
      assert (match (if Nat.odd r' then r2 ← nsub r' 1; x ← vget (sg_d t) r2; y ← opc x smr; Ok (r2, y) else Ok (r', smr)) with
        | Ok (r1, smr1) => Nat.even r1 = true /\ l1 <= r1 <= r' /\ R C (r1 * 2 ^ h) (size + r) smr1
        | Panic => True | Diverge => False end) as HR.
      { destruct (Nat.odd r') eqn:Ho.
        - assert (l1 < r') as Hlr1.
          { destruct (decide (l1 = r')) as [->|]; [|lia]. rewrite <- Nat.negb_odd, Ho in He1. discriminate. }
          rewrite nsub_ok by lia. cbn [mbind res_bind]. destruct (ci_node _ _ I (r' - 1) h) as (v & Hv & Rv); [fold size; nia|fold size; nia|]. rewrite (vget_ok _ _ _ Hv). cbn [mbind res_bind].
          destruct (O v smr) as [->| ->]; cbn [mbind res_bind]; [|exact Logic.I]. split.
          { destruct r' as [|r'']; [lia|]. rewrite Nat.odd_succ in Ho. replace (Datatypes.S r'' - 1) with r'' by lia. exact Ho. }
          split; [lia|]. apply (R_app e op L) with (m := r' * 2 ^ h); [nia| |exact R2]. replace (r' - 1 + 1) with r' in Rv by lia. exact Rv.
        - split; [rewrite <- Nat.negb_odd, Ho; reflexivity|]. split; [lia|exact R2]. }
      destruct (if Nat.odd r' then _ else _) as [[r1 smr1]| |]; [|exact Logic.I|exact HR]. destruct HR as (He2 & Hr1 & R2'). cbn [mbind res_bind].
      apply Nat.even_spec in He1, He2. destruct He1 as [l2 ->]. destruct He2 as [r2 ->].
      assert (2 * l2 / 2 = l2) as -> by (rewrite Nat.mul_comm; apply Nat.div_mul; lia).
      assert (2 * r2 / 2 = r2) as -> by (rewrite Nat.mul_comm; apply Nat.div_mul; lia).
      apply (IH _ _ _ _ (Datatypes.S h)); rewrite ?Nat.pow_succ_r'; [lia|nia|lia|nia| |].
      - replace (l2 * (2 * 2 ^ h)) with (2 * l2 * 2 ^ h) by nia. exact R1'.
      - replace (r2 * (2 * 2 ^ h)) with (2 * r2 * 2 ^ h) by nia. exact R2'. }
    specialize (G (r + size + 1) (l + size) (r + size) e e 0). rewrite Nat.pow_0_r, !Nat.mul_1_r in G.
    assert (match rloop (r + size + 1) (stc_prod_step opc (sg_d t)) (l + size, r + size, e, e) with
      | Ok (a, b) => exists m, size + l <= m <= size + r /\ R C (size + l) m a /\ R C m (size + r) b
      | Panic => True | Diverge => False end) as G' by (apply G; try lia; apply R_nil; lia). clear G.
    destruct (rloop _ _ _) as [[a b]| |]; cbn [mbind res_bind]; [|exact Logic.I|exact G']. destruct G' as (m & Hm & Ra & Rb).
    destruct (O a b) as [->| ->]; [|exact Logic.I]. split; [lia|]. rewrite <- (padc_slice t cells l r I) by lia. apply (R_app e op L) with (m := m); assumption.
  Qed.

  (** ** Histories *)
  Lemma step_cells t cells o : CI t cells ->
    exists t' out cells', stu_step e opc o t = Ok (t', out) /\ sg_cells_step e op cells o out cells' /\ CI t' cells'.
  Proof.
    intros I. destruct o as [p x|p|l r|]; cbn [stu_step sg_cells_step].
    - pose proof (set_ok t cells p x I) as H. unfold ubind. destruct (stu_set opc p x t) as [[t' [u|]]| |]; [| |contradiction|contradiction]; cbn [mbind res_bind].
      + destruct H as [Hp H]. exists t', (Some SgUnit), (<[p := [x]]> cells). auto.
      + exists t', None, (alter (cons x) p cells). auto.
    - unfold uread. rewrite (get_cells t cells p I). destruct (cells !! p) as [[|x c]|] eqn:Hc; cbn [mbind res_bind].
      + destruct (ci_head _ _ I p [] Hc) as (x & c' & E & _). discriminate.
      + exists t, (Some (SgVal x)), cells. eauto.
      + exists t, None, cells. apply lookup_ge_None_1 in Hc. auto.
    - unfold uread. pose proof (prod_cells t cells l r I) as H. destruct (stc_prod e opc t l r) as [v| |]; cbn [mbind res_bind]; [| |contradiction].
      + exists t, (Some (SgVal v)), cells. auto.
      + exists t, None, cells. auto.
    - unfold uread. destruct (all_prod_cells t cells I) as (v & -> & Hv). cbn [mbind res_bind]. exists t, (Some (SgVal v)), cells. eauto 10.
  Qed.
  Lemma run_cells ops : forall t cells, CI t cells ->
    exists t' outs cells', urun (stu_step e opc) t ops = Ok (t', outs) /\ cells_run (sg_cells_step e op) cells ops outs cells' /\ CI t' cells'.
  Proof.
    induction ops as [|o ops IH]; intros t cells I; cbn [urun cells_run].
    - exists t, [], cells. auto.
    - destruct (step_cells t cells o I) as (t1 & out & c1 & -> & H1 & I1). cbn [mbind res_bind].
      destruct (IH t1 c1 I1) as (t2 & outs & c2 & -> & H2 & I2). cbn [mbind res_bind]. exists t2, (out :: outs), c2. split; [reflexivity|]. split; [|exact I2]. exists c1. auto.
  Qed.

  (** Nobody catching: the checked model. *)
  Lemma set_strip p x t : (a ← strip (stu_set opc p x t); Ok a.1) = stc_set opc t p x.
  Proof.
    unfold stu_set, stc_set. rewrite strip_bind, strip_read. destruct (rassert _) as [[]| |]; cbn [mbind res_bind]; [|reflexivity|reflexivity].
    rewrite strip_bind, strip_read. cbn [mbind res_bind]. rewrite strip_bind, strip_write. destruct (vset (sg_d t) (p + sg_size t) x) as [d| |]; cbn [mbind res_bind]; [|reflexivity|reflexivity].
    rewrite strip_bind, strip_read. cbn [mbind res_bind with_d sg_log].
    assert (forall xs d, strip (ufor xs (fun (i : nat) (_ : unit) => uwrite (fun t0 : segtree S => d0 ← stc_update opc (sg_d t0) ((p + sg_size t) / 2 ^ i); Ok (with_d t0 d0))) tt (with_d t d)) =
       (d' ← rfor xs (fun i d => stc_update opc d ((p + sg_size t) / 2 ^ i)) d; Ok (with_d t d', tt))) as G.
    { induction xs as [|i xs IH]; intros d1; [reflexivity|]. cbn [ufor rfor]. rewrite strip_bind, strip_write. cbn [with_d sg_d].
      destruct (stc_update opc d1 _) as [d2| |]; cbn [mbind res_bind]; [|reflexivity|reflexivity]. rewrite <- IH. reflexivity. }
    change (Segtree (sg_n t) (sg_size t) (sg_log t) d) with (with_d t d). rewrite G. destruct (rfor _ _ _); reflexivity.
  Qed.
End segtree.
