(** Heavy-light decomposition: the queries. *)
From Verif Require Import Prelude TreeProof UtilModel ArraySpec LazySpec LazyModel LazyTop TreeSpec CompSpec HldSpec HldModel CompTree CompHldTree.

Lemma rev_reverse {A} (l : list A) : rev l = reverse l.
Proof. apply rev_alt. Qed.

(** A walk contains a path. *)
Lemma walk_path g u v l : walk g u v l -> exists l', walk g u v l' /\ NoDup l'.
Proof.
  induction 1 as [u|u w v l He Hw (l' & W & N)]; [exists [u]; split; [constructor|apply NoDup_singleton]|].
  destruct (decide (u ∈ l')) as [Hin|Hin].
  - destruct (walk_split g w v u l' W Hin) as (l1 & l2 & -> & _ & W2). exists (u :: l2). split; [exact W2|]. apply NoDup_app in N. apply N.
  - exists (u :: l'). split; [econstructor; eauto|]. apply NoDup_cons. auto.
Qed.
Section paths.
  Context (g : list (list nat)) (C : nat -> Prop) (root : nat) (par dep : nat -> nat) (Ht : ctree g C root par dep).
  Context (vs : list nat) (Hvs : forall v, v ∈ vs <-> C v) (Hvn : NoDup vs) (Hiso : forall v, ~ C v -> par v = v).
  Context (h : hl) (hv : nat -> option nat) (pos posr : nat -> nat) (Hd : decomp g C root par dep vs h hv pos posr).
  Notation n := (length g).
  Notation m := (length vs).
  Notation up := (up par).
  Notation anc := (anc par).
  Notation child := (child C root par).
  Notation head := (headf par dep hv).
  Notation sz := (sz par dep vs).

  (** *** Heavy paths *)
  Lemma head_facts : forall k v, C v -> dep v = k ->
    anc (head v) v /\ pos v = pos (head v) + (dep v - dep (head v)) /\ forall x, anc (head v) x -> anc x v -> head x = head v.
  Proof.
    induction k as [|k IH]; intros v Hv Hk.
    - apply (dep_0 _ _ _ _ _ Ht v Hv) in Hk as ->. rewrite (head_root _ _ _ _ _ Ht). split; [apply anc_refl|]. split; [lia|].
      intros x A1 A2. assert (C x) by (eapply anc_lt; [exact Ht| |eassumption]; assumption). rewrite (anc_antisym _ _ _ _ _ Ht x root); auto. apply (head_root _ _ _ _ _ Ht).
    - assert (v <> root) as Hr by (intros ->; rewrite (t_root_dep _ _ _ _ _ Ht) in Hk; lia).
      assert (child (par v) v) as Hc by (split; [exact Hv|auto]).
      assert (C (par v)) as Hp by (apply (par_lt _ _ _ _ _ Ht); exact Hv).
      pose proof (child_dep _ _ _ _ _ Ht _ _ Hc) as Hdv.
      pose proof (head_child _ _ _ _ _ Ht hv _ _ Hc) as E. destruct (decide (hv (par v) = Some v)) as [Eh|Eh].
      + destruct (IH (par v) Hp) as (A & B & B'); [lia|]. rewrite E. split; [eapply anc_trans; [exact A|apply anc_par]|]. split.
        * rewrite (d_hpos _ _ _ _ _ _ _ _ _ _ Hd _ _ Hp Eh), B. pose proof (anc_dep _ _ _ _ _ Ht _ _ Hp A). lia.
        * intros x A1 A2. destruct (anc_step _ _ _ A2) as [->|A3]; [exact E|]. apply B'; auto.
      + rewrite E. split; [apply anc_refl|]. split; [lia|]. intros x A1 A2. assert (C x) by (eapply anc_lt; [exact Ht| |eassumption]; assumption).
        rewrite (anc_antisym _ _ _ _ _ Ht x v); auto.
  Qed.
  Lemma head_anc v : C v -> anc (head v) v.
  Proof. intros Hv. apply (head_facts (dep v) v Hv eq_refl). Qed.
  Lemma head_lt v : C v -> C (head v).
  Proof. intros Hv. eapply anc_lt; [exact Ht|exact Hv|apply head_anc; exact Hv]. Qed.
  Lemma head_pos v : C v -> pos v = pos (head v) + (dep v - dep (head v)).
  Proof. intros Hv. apply (head_facts (dep v) v Hv eq_refl). Qed.
  Lemma head_between v x : C v -> anc (head v) x -> anc x v -> head x = head v.
  Proof. intros Hv. apply (head_facts (dep v) v Hv eq_refl). Qed.
  Lemma head_head v : C v -> head (head v) = head v.
  Proof. intros Hv. apply head_between; [exact Hv|apply anc_refl|apply head_anc; exact Hv]. Qed.
  Lemma head_dep v : C v -> dep (head v) <= dep v.
  Proof. intros Hv. apply (anc_dep _ _ _ _ _ Ht); [exact Hv|apply head_anc; exact Hv]. Qed.
  Lemma anc_of_dep a x v : C v -> anc a v -> anc x v -> dep a <= dep x -> anc a x.
  Proof.
    intros Hv A1 A2 Hle. destruct (anc_comparable par a x v A1 A2) as [A|A]; [exact A|].
    rewrite (anc_dep_eq _ _ _ _ _ Ht x a); [apply anc_refl|eapply anc_lt; [exact Ht| |exact A1]; exact Hv|exact A|exact Hle].
  Qed.
  Lemma same_head_anc u v : C u -> C v -> head u = head v -> pos u <= pos v -> anc u v.
  Proof.
    intros Hu Hv E Hle. pose proof (head_pos u Hu) as Pu. pose proof (head_pos v Hv) as Pv. rewrite E in Pu.
    pose proof (head_dep u Hu) as Du. pose proof (head_dep v Hv) as Dv. rewrite E in Du.
    assert (dep (up (dep v - dep u) v) = dep u) as Dx by (rewrite (dep_up _ _ _ _ _ Ht) by exact Hv; lia).
    pose proof (up_lt _ _ _ _ _ Ht (dep v - dep u) v Hv) as Hx.
    assert (head (up (dep v - dep u) v) = head v) as Ex.
    { apply head_between; [exact Hv| |apply anc_up]. eapply anc_of_dep; [exact Hv|apply head_anc; exact Hv|apply anc_up|lia]. }
    pose proof (head_pos _ Hx) as Px. rewrite Ex, Dx in Px. rewrite (d_inj _ _ _ _ _ _ _ _ _ _ Hd u (up (dep v - dep u) v) Hu Hx) by lia. apply anc_up.
  Qed.

  (** The vertices from a down to its descendant b. *)
  Definition seg (a b : nat) : list nat := rev (map (fun i => up i b) (seq 0 (S (dep b - dep a)))).
  Lemma seg_length a b : length (seg a b) = S (dep b - dep a).
  Proof. unfold seg. rewrite rev_length, map_length, seq_length. reflexivity. Qed.
  Lemma elem_seg a b x : C b -> anc a b -> x ∈ seg a b <-> anc a x /\ anc x b.
  Proof.
    intros Hb A. unfold seg. rewrite elem_of_list_In, <- in_rev, <- elem_of_list_In. pose proof (anc_dep _ _ _ _ _ Ht a b Hb A) as Hle. split.
    - intros H. apply elem_of_list_fmap in H as (i & -> & Hi). apply elem_of_seq in Hi. split; [|apply anc_up].
      eapply anc_of_dep; [exact Hb|exact A|apply anc_up|]. rewrite (dep_up _ _ _ _ _ Ht) by exact Hb. lia.
    - intros [A1 A2]. destruct (anc_bound _ _ _ _ _ Ht x b Hb A2) as (k & K1 & K2 & K3). assert (C x) as Hx by (eapply anc_lt; [exact Ht| |eassumption]; assumption).
      pose proof (anc_dep _ _ _ _ _ Ht a x Hx A1). apply elem_of_list_fmap. exists k. split; [symmetry; exact K2|]. apply elem_of_seq. lia.
  Qed.
  Lemma seg_lookup a b i x : C b -> anc a b -> seg a b !! i = Some x -> anc a x /\ anc x b /\ dep x = dep a + i.
  Proof.
    intros Hb A H. pose proof (anc_dep _ _ _ _ _ Ht a b Hb A) as Hle.
    pose proof (elem_of_list_lookup_2 _ _ _ H) as Hin. apply elem_seg in Hin as [A1 A2]; auto. split; [exact A1|]. split; [exact A2|].
    unfold seg in H. pose proof (lookup_lt_Some _ _ _ H) as Hl. rewrite rev_length, map_length, seq_length in Hl.
    assert (map (fun i => up i b) (seq 0 (S (dep b - dep a))) !! (dep b - dep a - i) = Some x) as H'.
    { rewrite rev_reverse in H. rewrite reverse_lookup in H by (rewrite map_length, seq_length; lia).
      rewrite map_length, seq_length in H. rewrite <- H. f_equal. }
    apply list_lookup_fmap_inv in H' as (j & -> & Hj). apply lookup_seq in Hj as [-> Hj]. rewrite (dep_up _ _ _ _ _ Ht) by exact Hb. lia.
  Qed.
  (** On a heavy path, a segment occupies consecutive positions. *)
  Lemma seg_pos a b x : C a -> C b -> C x -> anc a b -> head a = head b -> pos a <= pos x <= pos b <-> anc a x /\ anc x b.
  Proof.
    intros Ha Hb Hx A E. pose proof (head_pos a Ha) as Pa. pose proof (head_pos b Hb) as Pb. rewrite E in Pa.
    pose proof (head_dep a Ha) as Da. rewrite E in Da. pose proof (anc_dep _ _ _ _ _ Ht a b Hb A) as Dab. split.
    - intros Hi. assert (anc a (up (pos b - pos x) b)) as A1.
      { eapply anc_of_dep; [exact Hb|exact A|apply anc_up|]. rewrite (dep_up _ _ _ _ _ Ht) by exact Hb. lia. }
      assert (head (up (pos b - pos x) b) = head b) as Ey.
      { apply head_between; [exact Hb| |apply anc_up]. rewrite <- E. eapply anc_trans; [apply head_anc; exact Ha|exact A1]. }
      pose proof (up_lt _ _ _ _ _ Ht (pos b - pos x) b Hb) as Hy. pose proof (head_pos _ Hy) as Py.
      rewrite Ey, (dep_up _ _ _ _ _ Ht) in Py by exact Hb.
      rewrite (d_inj _ _ _ _ _ _ _ _ _ _ Hd x (up (pos b - pos x) b) Hx Hy) by lia. split; [exact A1|apply anc_up].
    - intros [A1 A2]. pose proof (anc_dep _ _ _ _ _ Ht a x Hx A1). pose proof (anc_dep _ _ _ _ _ Ht x b Hb A2).
      assert (head x = head b) as Ex by (apply head_between; [exact Hb|rewrite <- E; eapply anc_trans; [apply head_anc; exact Ha|exact A1]|exact A2]).
      pose proof (head_pos x Hx) as Px. rewrite Ex in Px. lia.
  Qed.
  Lemma seg_pos_lookup a b i x : C a -> C b -> anc a b -> head a = head b -> seg a b !! i = Some x -> C x /\ pos x = pos a + i.
  Proof.
    intros Ha Hb A E H. destruct (seg_lookup a b i x Hb A H) as (A1 & A2 & Dx). assert (C x) as Hx by (eapply anc_lt; [exact Ht| |eassumption]; assumption). split; [exact Hx|].
    assert (head x = head b) as Ex by (apply head_between; [exact Hb|rewrite <- E; eapply anc_trans; [apply head_anc; exact Ha|exact A1]|exact A2]).
    pose proof (head_pos a Ha) as Pa. pose proof (head_pos x Hx) as Px. rewrite Ex in Px. rewrite E in Pa. pose proof (head_dep a Ha) as Da. rewrite E in Da. lia.
  Qed.

  (** *** Paths as permutations of segments *)
  Definition pathp (u v : nat) (L : list nat) : Prop := exists l, is_path g u v l /\ l ≡ₚ L.
  Lemma pathp_sym u v L : C u -> pathp u v L -> pathp v u L.
  Proof.
    intros Hu (l & [H1 H2] & H3). exists (rev l). split; [split; [eapply walk_rev; eauto|rewrite <- (Permutation_rev l); exact H2]|].
    rewrite <- H3. symmetry. apply Permutation_rev.
  Qed.
  Lemma path_exists u v : C u -> C v -> exists l, walk g u v l /\ NoDup l.
  Proof.
    intros Hu Hv. destruct (lcap_exists _ _ _ _ _ Ht u v Hu Hv) as (l & Hl). destruct (dist_ok _ _ _ _ _ Ht u v l Hu Hv Hl) as [(p & W & _) _].
    eapply walk_path; exact W.
  Qed.
  Lemma pathp_exists u v : C u -> C v -> exists L, pathp u v L.
  Proof.
    intros Hu Hv. destruct (path_exists u v Hu Hv) as (l & H1 & H2). exists l, l. split; [split; auto|reflexivity].
  Qed.
  Lemma pathp_NoDup u v L : pathp u v L -> NoDup L.
  Proof. intros (l & [_ H] & E). rewrite <- E. exact H. Qed.
  Lemma path_seg a b : C b -> anc a b -> is_path g b a (map (fun i => up i b) (seq 0 (S (dep b - dep a)))).
  Proof.
    intros Hb A. destruct (anc_bound _ _ _ _ _ Ht a b Hb A) as (k & K1 & K2 & K3). split.
    - pose proof (walk_up _ _ _ _ _ Ht (dep b - dep a) b Hb ltac:(lia)) as W. replace (up (dep b - dep a) b) with a in W; [exact W|].
      replace (dep b - dep a) with k by lia. symmetry. exact K2.
    - change (map ?f ?l) with (f <$> l). apply NoDup_fmap_2_strong; [|apply NoDup_seq].
      intros x y Hx Hy E. apply elem_of_seq in Hx, Hy. pose proof (dep_up _ _ _ _ _ Ht x b Hb). pose proof (dep_up _ _ _ _ _ Ht y b Hb). rewrite E in *. lia.
  Qed.
  Lemma pathp_chain a b : C b -> anc a b -> pathp a b (seg a b).
  Proof.
    intros Hb A. apply pathp_sym; [exact Hb|]. eexists. split; [apply path_seg; eauto|]. unfold seg. apply Permutation_rev.
  Qed.
  Lemma pathp_climb u a v L : C u -> C v -> anc a u -> ~ anc a v -> pathp (par a) v L -> pathp u v (seg a u ++ L).
  Proof.
    intros Hu Hv A Hn (l & [W Hnd] & HP). destruct (path_seg a u Hu A) as [W1 Hnd1]. set (c := map _ _) in *.
    assert (C a) as Ha by (eapply anc_lt; [exact Ht| |eassumption]; assumption).
    assert (a <> root) as Hr by (intros ->; apply Hn; apply (anc_root _ _ _ _ _ Ht); exact Hv).
    assert (child (par a) a) as Hc by (split; [exact Ha|auto]).
    exists (c ++ l). split; [split|].
    - destruct (walk_inv_snoc g u a c W1) as [[-> ->]|(x & l' & X1 & X2 & ->)].
      + cbn. econstructor; [|exact W]. eapply edge_iff; [exact Ht|exact Ha|]. split; [apply (par_lt _ _ _ _ _ Ht); exact Ha|auto].
      + rewrite <- app_assoc. cbn. assert (walk g u (par a) ((l' ++ [a]) ++ [par a])) as W2.
        { eapply walk_snoc; [exact W1|]. eapply edge_iff; [exact Ht|exact Ha|]. split; [apply (par_lt _ _ _ _ _ Ht); exact Ha|auto]. }
        destruct (walk_head_eq g (par a) v l W) as (l2 & ->). pose proof (walk_app g u (par a) v _ _ W2 W) as W3. cbn in W3. rewrite <- !app_assoc in W3. exact W3.
    - apply NoDup_app. split; [exact Hnd1|]. split; [|exact Hnd]. intros y Hy Hyl.
      assert (y ∈ seg a u) as Hys by (unfold seg; rewrite elem_of_list_In, <- in_rev, <- elem_of_list_In; exact Hy).
      apply (elem_seg a u y Hu A) in Hys as [Ay _].
      (* the path from par a would have to come back to par a *)
      destruct (walk_split g (par a) v y l W Hyl) as (l1 & l2 & -> & Y1 & Y2).
      pose proof (walk_cross _ _ _ _ _ Ht v y a (rev (y :: l2)) (walk_rev _ _ _ _ _ Ht _ _ _ (walk_in _ _ _ _ _ Ht _ _ _ Y1 (par_lt _ _ _ _ _ Ht a Ha)) Y2) Hv Ha Hr Ay Hn) as Hin.
      rewrite elem_of_list_In, <- in_rev, <- elem_of_list_In in Hin.
      destruct (walk_head_eq g (par a) y _ Y1) as (l3 & E3). destruct l1 as [|z l1].
      + cbn in E3. injection E3 as E3 _. rewrite E3 in Ay. exact (child_not_anc _ _ _ _ _ Ht _ _ Hc Ay).
      + cbn in E3. injection E3 as E3 _. subst z. cbn in Hnd. apply NoDup_cons in Hnd as [Hnin _]. apply Hnin. apply elem_of_app. right. exact Hin.
    - rewrite HP. apply Permutation_app_tail. unfold seg. apply Permutation_rev.
  Qed.

  (** *** Light edges *)
  Fixpoint lightk (k v : nat) : nat :=
    match k with O => 0 | S k => (if decide (hv (par v) = Some v) then 0 else 1) + lightk k (par v) end.
  Definition light (v : nat) : nat := lightk (dep v) v.
  Lemma light_child u c : child u c -> light c = (if decide (hv u = Some c) then 0 else 1) + light u.
  Proof. intros Hc. unfold light. rewrite (child_dep _ _ _ _ _ Ht u c Hc). destruct Hc as (_ & _ & <-). reflexivity. Qed.
  Lemma light_head : forall k v, C v -> dep v = k -> light (head v) = light v.
  Proof.
    induction k as [|k IH]; intros v Hv Hk.
    - apply (dep_0 _ _ _ _ _ Ht v Hv) in Hk as ->. rewrite (head_root _ _ _ _ _ Ht). reflexivity.
    - assert (v <> root) as Hr by (intros ->; rewrite (t_root_dep _ _ _ _ _ Ht) in Hk; lia).
      assert (child (par v) v) as Hc by (split; [exact Hv|auto]). pose proof (child_dep _ _ _ _ _ Ht _ _ Hc) as Hdv.
      rewrite (head_child _ _ _ _ _ Ht hv _ _ Hc), (light_child _ _ Hc). destruct (decide (hv (par v) = Some v)) as [Eh|Eh].
      + apply IH; [apply (par_lt _ _ _ _ _ Ht); exact Hv|lia].
      + rewrite (light_child _ _ Hc), decide_False by exact Eh. reflexivity.
  Qed.
  Lemma light_climb v : C v -> head v <> root -> light v = S (light (par (head v))).
  Proof.
    intros Hv Hr. rewrite <- (light_head _ v Hv eq_refl). assert (child (par (head v)) (head v)) as Hc by (split; [apply head_lt; exact Hv|auto]).
    rewrite (light_child _ _ Hc). destruct (decide _) as [Eh|Eh]; [|reflexivity]. exfalso.
    pose proof (head_child _ _ _ _ _ Ht hv _ _ Hc) as E. rewrite decide_True in E by exact Eh. rewrite head_head in E by exact Hv.
    assert (C (par (head v))) as Hp by (apply (par_lt _ _ _ _ _ Ht), head_lt, Hv).
    pose proof (head_dep _ Hp) as D1. rewrite <- E in D1. rewrite (child_dep _ _ _ _ _ Ht _ _ Hc) in D1. lia.
  Qed.
  Lemma sz_child u c : child u c -> sz c < sz u.
  Proof.
    intros Hc. assert (C u) as Hu by (destruct Hc as (H & _ & <-); apply (par_lt _ _ _ _ _ Ht); exact H).
    unfold CompHldTree.sz. change (S (length (subtree par dep vs c)) <= length (subtree par dep vs u)).
    change (S (length (subtree par dep vs c))) with (length (u :: subtree par dep vs c)). apply submseteq_length, NoDup_submseteq.
    - apply NoDup_cons. split; [|apply (NoDup_subtree _ _ _ Hvn)]. intros H. apply (elem_subtree _ _ _ _ _ Ht vs Hvs) in H as [_ H]. exact (child_not_anc _ _ _ _ _ Ht _ _ Hc H).
    - intros x Hx. apply elem_of_cons in Hx as [->|Hx]; apply (elem_subtree _ _ _ _ _ Ht vs Hvs); [split; [exact Hu|apply anc_refl]|].
      apply (elem_subtree _ _ _ _ _ Ht vs Hvs) in Hx as [Hx A]. split; [exact Hx|]. eapply anc_trans; [apply (child_anc C root par); exact Hc|exact A].
  Qed.
  Lemma sz_two u c c' : child u c -> child u c' -> c <> c' -> sz c + sz c' < sz u.
  Proof.
    intros Hc Hc' Hne. assert (C u) as Hu by (destruct Hc as (H & _ & <-); apply (par_lt _ _ _ _ _ Ht); exact H).
    unfold CompHldTree.sz. rewrite <- app_length. change (length (u :: (subtree par dep vs c ++ subtree par dep vs c')) <= length (subtree par dep vs u)).
    apply submseteq_length, NoDup_submseteq.
    - apply NoDup_cons. split.
      + intros H. apply elem_of_app in H as [H|H]; apply (elem_subtree _ _ _ _ _ Ht vs Hvs) in H as [_ H]; [exact (child_not_anc _ _ _ _ _ Ht _ _ Hc H)|exact (child_not_anc _ _ _ _ _ Ht _ _ Hc' H)].
      + apply NoDup_app. split; [apply (NoDup_subtree _ _ _ Hvn)|]. split; [|apply (NoDup_subtree _ _ _ Hvn)]. intros x H1 H2.
        apply (elem_subtree _ _ _ _ _ Ht vs Hvs) in H1 as [Hx H1]. apply (elem_subtree _ _ _ _ _ Ht vs Hvs) in H2 as [_ H2]. apply Hne. eapply child_disjoint; eauto.
    - intros x Hx. apply elem_of_cons in Hx as [->|Hx]; apply (elem_subtree _ _ _ _ _ Ht vs Hvs); [split; [exact Hu|apply anc_refl]|].
      apply elem_of_app in Hx as [Hx|Hx]; apply (elem_subtree _ _ _ _ _ Ht vs Hvs) in Hx as [Hx A]; (split; [exact Hx|]);
        (eapply anc_trans; [|exact A]; apply (child_anc C root par); assumption).
  Qed.
  Lemma light_sz : forall k v, C v -> dep v = k -> 2 ^ light v * sz v <= m.
  Proof.
    induction k as [|k IH]; intros v Hv Hk.
    - assert (light v = 0) as -> by (unfold light; rewrite Hk; reflexivity). rewrite Nat.pow_0_r, Nat.mul_1_l. unfold CompHldTree.sz, subtree.
      apply filter_length.
    - assert (v <> root) as Hr by (intros ->; rewrite (t_root_dep _ _ _ _ _ Ht) in Hk; lia).
      assert (child (par v) v) as Hc by (split; [exact Hv|auto]). pose proof (child_dep _ _ _ _ _ Ht _ _ Hc) as Hdv.
      assert (C (par v)) as Hp by (apply (par_lt _ _ _ _ _ Ht); exact Hv).
      specialize (IH (par v) Hp ltac:(lia)). rewrite (light_child _ _ Hc). destruct (decide (hv (par v) = Some v)) as [Eh|Eh].
      + cbn [Nat.add]. pose proof (sz_child _ _ Hc). nia.
      + pose proof (d_heavy _ _ _ _ _ _ _ _ _ _ Hd (par v) Hp) as Hh. destruct (hv (par v)) as [c|]; [|exfalso; exact (Hh v Hc)].
        destruct Hh as [Hc' Hmax]. pose proof (sz_two _ _ _ Hc Hc' ltac:(congruence)). specialize (Hmax v Hc).
        cbn [Nat.add]. rewrite Nat.pow_succ_r'. nia.
  Qed.
  Lemma m_le : m <= n.
  Proof.
    rewrite <- (seq_length n 0). apply submseteq_length, NoDup_submseteq; [exact Hvn|]. intros v Hv. apply elem_of_seq. apply Hvs, (C_lt _ _ _ _ _ Ht) in Hv. lia.
  Qed.
  Lemma light_log v : C v -> light v <= Nat.log2 m.
  Proof.
    intros Hv. pose proof (light_sz _ v Hv eq_refl) as H. pose proof (sz_pos _ _ _ _ _ Ht vs Hvs v Hv) as Hs. apply Nat.log2_le_pow2; [pose proof (Nat.pow_nonzero 2 (light v)); nia|].
    pose proof (Nat.pow_nonzero 2 (light v)). nia.
  Qed.
End paths.
