(** Kőnig's theorem from the last state of solve; deficiency, independent sets, and the unit network by cuts. *)
From Verif Require Import Prelude ArraySpec IntModel MatchingModel MatchingSpec MatchingProof DinicModel DinicSpec DinicProof CoverSpec.

Lemma filter_split_length {A} (P : A -> Prop) `{!forall x, Decision (P x)} (l : list A) :
  length (filter (fun x => ~ P x) l) + length (filter P l) = length l.
Proof.
  induction l as [|x l IH]; [reflexivity|]. rewrite !filter_cons. destruct (decide (P x)), (decide (~ P x)); cbn [length]; try lia; tauto.
Qed.

Lemma NoDup_fmap_filter {A B} (f : A -> B) (P : A -> Prop) `{!forall x, Decision (P x)} (l : list A) :
  NoDup (f <$> l) -> NoDup (f <$> filter P l).
Proof.
  induction l as [|x l IH]; [auto|]. rewrite fmap_cons. intros [Hx Hn]%NoDup_cons. rewrite filter_cons. destruct (decide (P x)); [|auto].
  rewrite fmap_cons. apply NoDup_cons. split; [|auto]. intros (y & Ey & Hy)%elem_of_list_fmap. apply elem_of_list_filter in Hy as [_ Hy].
  apply Hx. rewrite Ey. apply elem_of_list_fmap_1. exact Hy.
Qed.

(** Weak duality: each edge of a matching takes its own vertex of the cover. *)
Lemma matching_le_cover E M L R : matching E M -> covers E L R -> length M <= length L + length R.
Proof.
  intros (HE & N1 & N2) HC. rewrite <- (filter_split_length (fun e => e.1 ∈ L) M).
  assert (length (filter (fun e => e.1 ∈ L) M) <= length L).
  { rewrite <- (fmap_length fst). apply submseteq_length, NoDup_submseteq.
    - apply NoDup_fmap_filter; exact N1.
    - intros x (e & -> & He)%elem_of_list_fmap. apply elem_of_list_filter in He as [He _]. exact He. }
  assert (length (filter (fun e => ~ e.1 ∈ L) M) <= length R); [|lia].
  rewrite <- (fmap_length snd). apply submseteq_length, NoDup_submseteq.
  - apply NoDup_fmap_filter; exact N2.
  - intros x ([u v] & -> & He)%elem_of_list_fmap. apply elem_of_list_filter in He as [Hn He]. destruct (HC u v (HE _ He)) as [?|?]; [contradiction|assumption].
Qed.

(** The last state of solve shows a cover as large as its matching. *)
Lemma solved_cover n m g E vis l r : length g = n -> (forall u v, (u, v) ∈ E <-> exists es, g !! u = Some es /\ v ∈ es) ->
  solved n m g (vis, l, r) -> exists L R, covers E L R /\ length L + length R = length (matched l).
Proof.
  intros Hgn HE (Hv & Hok & Hun & Hcl).
  set (par := fun i => match l !! i with Some (Some y) => y | _ => 0 end).
  exists (filter (fun x => ~ vis !! x = Some true) (matched l)), (map par (filter (fun x => vis !! x = Some true) (matched l))).
  split; [|rewrite map_length; apply (filter_split_length (fun x => vis !! x = Some true))].
  intros u v Huv. apply HE in Huv as (es & Hes & Hy). pose proof (lookup_lt_Some _ _ _ Hes) as Hu. rewrite Hgn in Hu.
  destruct (decide (vis !! u = Some true)) as [Hx|Hx].
  - right. destruct (Hcl u) with (es := es) (v := v) as (w & Hw & Hvw); try assumption.
    { apply lookup_replicate_2. exact Hu. }
    apply (mk_rl _ _ _ _ _ Hok) in Hw. apply elem_of_list_fmap. exists w. unfold par. rewrite Hw. split; [reflexivity|].
    apply elem_of_list_filter. split; [exact Hvw|]. apply elem_of_matched. eauto.
  - left. apply elem_of_list_filter. split; [exact Hx|]. apply elem_of_matched.
    destruct (l !! u) as [[y'|]|] eqn:El; [eauto|exfalso; apply Hx, Hun; assumption|].
    apply lookup_ge_None in El. rewrite (mk_l _ _ _ _ _ Hok) in El. lia.
Qed.

Lemma edges_of_map E : edges_of (map (fun e => BmEdge e.1 e.2) E) = E.
Proof. induction E as [|[u v] E IH]; [reflexivity|]. cbn. unfold edges_of in IH. rewrite IH. reflexivity. Qed.

Lemma edges_bounded (E : list (nat * nat)) : exists b, Forall (fun e => e.1 < b /\ e.2 < b) E.
Proof.
  induction E as [|[u v] E [b IH]]; [exists 0; constructor|]. exists (b + S (u + v)). constructor; [cbn; lia|].
  eapply Forall_impl; [exact IH|]. intros [x y] [H1 H2]. cbn in *. lia.
Qed.

Lemma koenig E k : max_matching_size E k -> min_cover_size E k.
Proof.
  intros [(M & HM & <-) Hmax]. split; [|intros L R; apply matching_le_cover; exact HM].
  destruct (edges_bounded E) as [b Hb].
  destruct (bm_history b b (map (fun e => BmEdge e.1 e.2) E) [] (bm_new b b) (bm_new_inv b b)) as [Ha B].
  assert (Forall (valid_op b b) (map (fun e => BmEdge e.1 e.2) E)) as Hval.
  { apply Forall_fmap. eapply Forall_impl; [exact Hb|]. intros [x y] H. exact H. }
  apply bm_allowed_valid in Ha as (outs & E' & _); [|exact Hval|intros u v Hv; inversion Hv].
  destruct (run bm_step (bm_new b b) (map (fun e => BmEdge e.1 e.2) E)) as [[st outs']| |]; cbn in E'; try discriminate.
  specialize (B st outs' eq_refl). rewrite edges_of_map in B. cbn [app] in B. destruct B as [B1 B3 B4 B5].
  destruct (solve_loop b b (bm_g st) B1 (bm_vis st) (bm_l st) (bm_r st) B4 B5) as [[_ (u & es & v & Hu & Hv & Hbad)]|([[vis l] r] & _ & Hs)].
  { rewrite Forall_forall in Hb. destruct (Hb (u, v)); [apply B3; eauto|]. cbn in *. lia. }
  destruct (solved_cover b b (bm_g st) E vis l r B1 B3 Hs) as (L & R & HC & HL). exists L, R. split; [exact HC|].
  pose proof (matching_le_cover E M L R HM HC).
  pose proof Hs as (_ & Hok & _). pose proof (Hmax _ (pairs_matching b b (bm_g st) E B3 l r Hok)) as Hp. unfold pairs in Hp. rewrite map_length in Hp. lia.
Qed.

(** ** Deficiency *)
Definition outside (n : nat) (A : list nat) : list nat := filter (fun x => ~ x ∈ A) (seq 0 n).
Lemma outside_set n A : left_set n (outside n A).
Proof.
  split; [apply NoDup_filter, NoDup_ListNoDup, seq_NoDup|]. intros u [_ Hu]%elem_of_list_filter. apply elem_of_seq in Hu. lia.
Qed.
Lemma outside_length n A : left_set n A -> length (outside n A) + length A = n.
Proof.
  intros [Hn Hi]. pose proof (filter_split_length (fun x => x ∈ A) (seq 0 n)) as H. rewrite seq_length in H.
  assert (length (filter (fun x => x ∈ A) (seq 0 n)) = length A) as Hl; [|unfold outside; lia].
  apply Permutation_length, NoDup_Permutation; [apply NoDup_filter, NoDup_ListNoDup, seq_NoDup|exact Hn|].
  intros x. rewrite elem_of_list_filter, elem_of_seq. split; [tauto|]. intros Hx. split; [exact Hx|]. specialize (Hi x Hx). lia.
Qed.
Lemma outside_ge n L : n <= length (outside n L) + length L.
Proof.
  pose proof (filter_split_length (fun x => x ∈ L) (seq 0 n)) as H. rewrite seq_length in H.
  assert (length (filter (fun x => x ∈ L) (seq 0 n)) <= length L) as Hl; [|unfold outside; lia].
  apply submseteq_length, NoDup_submseteq; [apply NoDup_filter, NoDup_ListNoDup, seq_NoDup|]. intros x Hx%elem_of_list_filter. tauto.
Qed.

Section Graph.
  Context (n : nat) (E : list (nat * nat)) (k : nat) (HE : forall u v, (u, v) ∈ E -> u < n) (Hk : max_matching_size E k).

  Lemma deficiency_le A B : left_set n A -> neighbours_in E A B -> length A + k <= n + length B.
  Proof.
    intros HA HN. destruct (koenig E k Hk) as [_ H]. specialize (H (outside n A) B).
    pose proof (outside_length n A HA). assert (covers E (outside n A) B) as HC; [|specialize (H HC); lia].
    intros u v Huv. destruct (decide (u ∈ A)) as [Hu|Hu]; [right; eapply HN; eassumption|left].
    apply elem_of_list_filter. split; [exact Hu|]. apply elem_of_seq. specialize (HE u v Huv). lia.
  Qed.

  Lemma deficiency_ex : exists A B, left_set n A /\ neighbours_in E A B /\ length A + k = n + length B.
  Proof.
    destruct (koenig E k Hk) as [(L & R & HC & HL) _]. exists (outside n L), R. split; [apply outside_set|].
    assert (neighbours_in E (outside n L) R) as HN.
    { intros u v Hu Huv. apply elem_of_list_filter in Hu as [Hu _]. destruct (HC u v Huv); [contradiction|assumption]. }
    split; [exact HN|]. pose proof (outside_ge n L). pose proof (deficiency_le _ _ (outside_set n L) HN). lia.
  Qed.

  Lemma size_le : k <= n.
  Proof.
    destruct Hk as [(M & (HM & N1 & _) & <-) _]. rewrite <- (fmap_length fst). transitivity (length (seq 0 n)); [|rewrite seq_length; reflexivity]. apply submseteq_length, NoDup_submseteq; [exact N1|].
    intros x ([u v] & -> & He)%elem_of_list_fmap. apply elem_of_seq. specialize (HE u v (HM _ He)). cbn. lia.
  Qed.

  Lemma hall_iff : k = n <-> hall n E.
  Proof.
    split.
    - intros Ek A B HA HN. pose proof (deficiency_le A B HA HN). lia.
    - intros H. destruct deficiency_ex as (A & B & HA & HN & Hl). specialize (H A B HA HN). pose proof size_le. lia.
  Qed.

  Context (m : nat) (HE2 : forall u v, (u, v) ∈ E -> v < m).
  Lemma independent_le A B : independent n m E A B -> length A + length B + k <= n + m.
  Proof.
    intros (HA & HB & HI). pose proof (outside_length m B HB).
    assert (neighbours_in E A (outside m B)) as HN.
    { intros u v Hu Huv. apply elem_of_list_filter. split; [intros Hv; exact (HI u v Huv Hu Hv)|]. apply elem_of_seq. specialize (HE2 u v Huv). lia. }
    pose proof (deficiency_le A _ HA HN). lia.
  Qed.
  Lemma independent_ex : exists A B, independent n m E A B /\ length A + length B + k = n + m.
  Proof.
    destruct (koenig E k Hk) as [(L & R & HC & HL) _]. exists (outside n L), (outside m R).
    assert (independent n m E (outside n L) (outside m R)) as HI.
    { split; [apply outside_set|]. split; [apply outside_set|]. intros u v Huv Hu Hv.
      apply elem_of_list_filter in Hu as [Hu _]. apply elem_of_list_filter in Hv as [Hv _]. destruct (HC u v Huv); contradiction. }
    split; [exact HI|]. pose proof (independent_le _ _ HI). pose proof (outside_ge n L). pose proof (outside_ge m R). lia.
  Qed.
End Graph.

(** ** The unit network *)
Section Net.
  Open Scope Z_scope.
  Lemma cut_cap_app a b S : cut_cap (a ++ b) S = cut_cap a S + cut_cap b S.
  Proof. induction a as [|[[u v] c] a IH]; cbn [app cut_cap]; [reflexivity|]. rewrite IH. lia. Qed.
  Lemma cut_cap_perm a b S : a ≡ₚ b -> cut_cap a S = cut_cap b S.
  Proof.
    induction 1 as [|[[u v] c] a b _ IH|[[u v] c] [[u' v'] c'] a|a b d _ IH1 _ IH2]; cbn [cut_cap]; [reflexivity|rewrite IH; reflexivity|lia|congruence].
  Qed.
  Lemma cut_source s l (S : nat -> bool) : S s = true -> cut_cap (map (fun u => (s, u, 1)) l) S = Z.of_nat (length (filter (fun u => S u = false) l)).
  Proof.
    intros Hs. induction l as [|u l IH]; [reflexivity|]. cbn [map cut_cap]. rewrite filter_cons, IH, Hs. destruct (S u) eqn:Eu; cbn [negb andb].
    - destruct (decide (true = false)); [discriminate|]. lia.
    - destruct (decide (false = false)); [|congruence]. cbn [length]. lia.
  Qed.
  Lemma cut_sink n t l (S : nat -> bool) : S t = false -> cut_cap (map (fun v => ((n + v)%nat, t, 1)) l) S = Z.of_nat (length (filter (fun v => S (n + v)%nat = true) l)).
  Proof.
    intros Hs. induction l as [|u l IH]; [reflexivity|]. cbn [map cut_cap]. rewrite filter_cons, IH, Hs. destruct (S (n + u)%nat) eqn:Eu; cbn [negb andb].
    - destruct (decide (true = true)); [|congruence]. cbn [length]. lia.
    - destruct (decide (false = true)); [discriminate|]. lia.
  Qed.
  Definition crossing n (S : nat -> bool) (e : nat * nat * Z) : Prop := S e.1.1 = true /\ S (n + e.1.2)%nat = false.
  Local Instance crossing_dec n S e : Decision (crossing n S e).
  Proof. apply _. Defined.
  Lemma cut_middle n (E : list (nat * nat * Z)) (S : nat -> bool) : Forall (fun e => 1 <= e.2) E ->
    Z.of_nat (length (filter (crossing n S) E)) <= cut_cap (map (fun e => (e.1.1, (n + e.1.2)%nat, e.2)) E) S.
  Proof.
    induction 1 as [|[[u v] c] E Hc _ IH]; [reflexivity|]. cbn [map cut_cap fst snd]. rewrite filter_cons. cbn in Hc.
    destruct (decide (crossing n S (u, v, c))) as [[H1 H2]|H]; cbn [fst snd] in *.
    - rewrite H1, H2. cbn [andb negb length]. lia.
    - destruct (S u && negb (S (n + v)%nat)) eqn:Eb; [|lia]. lia.
  Qed.
  Lemma cut_middle_0 n (E : list (nat * nat * Z)) (S : nat -> bool) : (forall e, e ∈ E -> ~ crossing n S e) ->
    cut_cap (map (fun e => (e.1.1, (n + e.1.2)%nat, e.2)) E) S = 0.
  Proof.
    intros H. induction E as [|[[u v] c] E IH]; [reflexivity|]. cbn [map cut_cap fst snd]. rewrite IH by (intros e He; apply H; right; exact He).
    pose proof (H (u, v, c) ltac:(left)) as Hx. unfold crossing in Hx. cbn in Hx. destruct (S u), (S (n + v)%nat); cbn; try reflexivity. tauto.
  Qed.

  Context (n m : nat) (E : list (nat * nat * Z)).
  Context (HE : Forall (fun e => (e.1.1 < n)%nat /\ (e.1.2 < m)%nat /\ 1 <= e.2) E).
  Notation G := (map fst E).
  Notation s := (n + m)%nat. Notation t := (n + m + 1)%nat.

  Lemma HE_in u v : (u, v) ∈ G -> (u < n)%nat /\ (v < m)%nat.
  Proof. intros ([[u' v'] c] & [= -> ->] & He)%elem_of_list_fmap. rewrite Forall_forall in HE. apply HE in He. cbn in He. tauto. Qed.

  (** Every cut is at least as large as every matching. *)
  Lemma cut_ge_matching M S : matching G M -> S s = true -> S t = false -> Z.of_nat (length M) <= cut_cap (unit_net n m E) S.
  Proof.
    intros (HM & N1 & N2) Hs Ht. unfold unit_net. rewrite !cut_cap_app, cut_source, cut_sink by assumption.
    pose proof (cut_middle n E S) as Hc. specialize (Hc ltac:(eapply Forall_impl; [exact HE|]; cbn; tauto)).
    set (P := fun e : nat * nat => S e.1 = false). set (Q := fun e : nat * nat => S (n + e.2)%nat = true).
    assert (length (filter P M) <= length (filter (fun u => S u = false) (seq 0 n)))%nat as H1.
    { rewrite <- (fmap_length fst). apply submseteq_length, NoDup_submseteq.
      - apply NoDup_fmap_filter; exact N1.
      - intros x ([u v] & -> & He)%elem_of_list_fmap. apply elem_of_list_filter in He as [He Hi]. apply elem_of_list_filter. split; [exact He|].
        apply elem_of_seq. destruct (HE_in u v (HM _ Hi)). cbn. lia. }
    assert (length (filter Q (filter (fun e => ~ P e) M)) <= length (filter (fun v => S (n + v)%nat = true) (seq 0 m)))%nat as H2.
    { rewrite <- (fmap_length snd). apply submseteq_length, NoDup_submseteq.
      - apply NoDup_fmap_filter, NoDup_fmap_filter; exact N2.
      - intros x ([u v] & -> & He)%elem_of_list_fmap. apply elem_of_list_filter in He as [He Hi]. apply elem_of_list_filter in Hi as [_ Hi].
        apply elem_of_list_filter. split; [exact He|].
        apply elem_of_seq. destruct (HE_in u v (HM _ Hi)). cbn. lia. }
    assert (length (filter (fun e => ~ Q e) (filter (fun e => ~ P e) M)) <= length (filter (crossing n S) E))%nat as H3.
    { rewrite <- (fmap_length fst (filter (crossing n S) E)). apply submseteq_length, NoDup_submseteq.
      - apply NoDup_filter, NoDup_filter. apply (NoDup_fmap_1 fst). exact N1.
      - intros [u v] Hx. apply elem_of_list_filter in Hx as [Hq Hx]. apply elem_of_list_filter in Hx as [Hp Hx].
        apply HM in Hx. apply elem_of_list_fmap in Hx as ([[u' v'] c] & [= -> ->] & He). apply elem_of_list_fmap. exists (u', v', c).
        split; [reflexivity|]. apply elem_of_list_filter. split; [|exact He]. unfold P, Q in *. cbn in *. split; cbn.
        + destruct (S u'); congruence.
        + destruct (S (n + v')%nat); congruence. }
    pose proof (filter_split_length P M). pose proof (filter_split_length Q (filter (fun e => ~ P e) M)). lia.
  Qed.

  (** Every cover gives a cut no larger than it. *)
  Lemma cover_cut L R : covers G L R -> exists S, S s = true /\ S t = false /\ cut_cap (unit_net n m E) S <= Z.of_nat (length L + length R).
  Proof.
    intros HC.
    set (S := fun x => if decide (x < n)%nat then bool_decide (~ x ∈ L) else if decide (x < n + m)%nat then bool_decide ((x - n)%nat ∈ R) else bool_decide (x = n + m)%nat).
    assert (S s = true) as Hs.
    { unfold S. destruct (decide _); [lia|]. destruct (decide _); [lia|]. apply bool_decide_eq_true. reflexivity. }
    assert (S t = false) as Ht.
    { unfold S. destruct (decide _); [lia|]. destruct (decide _); [lia|]. apply bool_decide_eq_false. lia. }
    exists S. split; [exact Hs|]. split; [exact Ht|]. unfold unit_net. rewrite !cut_cap_app, cut_source, cut_sink by assumption.
    rewrite cut_middle_0.
    - assert (length (filter (fun u => S u = false) (seq 0 n)) <= length L)%nat.
      { apply submseteq_length, NoDup_submseteq; [apply NoDup_filter, NoDup_ListNoDup, seq_NoDup|].
        intros x [Hx Hi]%elem_of_list_filter. apply elem_of_seq in Hi. unfold S in Hx. destruct (decide _); [|lia].
        apply bool_decide_eq_false in Hx. destruct (decide (x ∈ L)); tauto. }
      assert (length (filter (fun v => S (n + v)%nat = true) (seq 0 m)) <= length R)%nat; [|lia].
      apply submseteq_length, NoDup_submseteq; [apply NoDup_filter, NoDup_ListNoDup, seq_NoDup|].
      intros x [Hx Hi]%elem_of_list_filter. apply elem_of_seq in Hi. unfold S in Hx. destruct (decide _); [lia|]. destruct (decide _); [|lia].
      apply bool_decide_eq_true in Hx. replace (n + x - n)%nat with x in Hx by lia. exact Hx.
    - intros [[u v] c] He [H1 H2]. cbn in H1, H2. assert ((u, v) ∈ G) as Hg by (apply elem_of_list_fmap; exists (u, v, c); auto).
      destruct (HE_in u v Hg) as [Hu Hv]. unfold S in H1, H2. destruct (decide (u < n)%nat); [|lia].
      destruct (decide (n + v < n)%nat); [lia|]. destruct (decide (n + v < n + m)%nat); [|lia].
      apply bool_decide_eq_true in H1. apply bool_decide_eq_false in H2. replace (n + v - n)%nat with v in H2 by lia. destruct (HC u v Hg); contradiction.
  Qed.

  Lemma net_cut es k v : es ≡ₚ unit_net n m E -> max_matching_size G k -> is_min_cut es s t v -> v = Z.of_nat k.
  Proof.
    intros Hp Hk [(S & Hs & Ht & Hv) Hmin]. destruct (koenig _ _ Hk) as [(L & R & HC & HL) _].
    destruct (cover_cut L R HC) as (S' & Hs' & Ht' & Hc). specialize (Hmin S' Hs' Ht').
    destruct Hk as [(M & HM & Hl) _]. pose proof (cut_ge_matching M S HM Hs Ht).
    rewrite (cut_cap_perm _ _ S Hp) in Hv. rewrite (cut_cap_perm _ _ S' Hp) in Hmin. lia.
  Qed.

  Lemma net_range x : x ∈ unit_net n m E -> (x.1.1 < n + m + 2)%nat /\ (x.1.2 < n + m + 2)%nat /\ 0 <= x.2.
  Proof.
    unfold unit_net. rewrite !elem_of_app. intros [H|[H|H]]; apply elem_of_list_fmap in H as (y & -> & Hy); cbn.
    - apply elem_of_seq in Hy. lia.
    - rewrite Forall_forall in HE. apply HE in Hy. lia.
    - apply elem_of_seq in Hy. lia.
  Qed.

  Lemma net_flow es k fs : es ≡ₚ unit_net n m E -> max_matching_size G k -> feasible es s t fs -> flow_value es s fs <= Z.of_nat k.
  Proof.
    intros Hp Hk Hf. destruct (koenig _ _ Hk) as [(L & R & HC & HL) _].
    destruct (cover_cut L R HC) as (S & Hs & Ht & Hc).
    rewrite (value_cutflow (n + m + 2) es s t fs S) by (try assumption; try lia; intros u v c Hi; rewrite Hp in Hi; apply net_range in Hi; cbn in Hi; lia).
    pose proof (cutflow_le es fs S (proj1 Hf)) as H. rewrite (cut_cap_perm _ _ S Hp) in H. lia.
  Qed.
End Net.
