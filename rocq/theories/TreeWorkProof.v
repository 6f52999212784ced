(** Depth-first searches on trees: number of steps and nesting. *)
From Verif Require Import Prelude UtilModel Eff TreeSpec TreeProof LiftModel LiftProof HldModel HldTree GraphWorkModel GraphWorkSpec AhoWorkSpec AhoWorkProof TreeWorkModel TreeWorkSpec.

Lemma costs_for_sum {A S} (P : S -> Prop) (k : A -> nat) bodyW (body : A -> S -> res S) xs :
  (forall x s, x ∈ xs -> P s -> costs (bodyW x s) (body x s) (fun _ => k x) /\ forall s', body x s = Ok s' -> P s') ->
  forall s, P s -> costs (efor xs bodyW s) (rfor xs body s) (fun _ => sum_list_with k xs) /\ forall s', rfor xs body s = Ok s' -> P s'.
Proof.
  induction xs as [|x xs IH]; intros H s Hs; cbn [efor rfor sum_list_with].
  - split; [apply costs_ret|]. intros s' [= <-]. exact Hs.
  - destruct (H x s ltac:(left) Hs) as [C1 P1]. assert (forall s', body x s = Ok s' -> costs (efor xs bodyW s') (rfor xs body s') (fun _ => sum_list_with k xs) /\ forall s'', rfor xs body s' = Ok s'' -> P s'') as H'.
    { intros s' E. apply IH; [|apply P1; exact E]. intros y t Hy. apply H. right. exact Hy. }
    split.
    + eapply costs_bind; [exact C1|]. intros s' E. eexists. split; [apply H'; exact E|]. intros. cbn. reflexivity.
    + intros s' E. apply rbind_ok_inv in E as (s1 & E1 & E). exact (proj2 (H' s1 E1) s' E).
Qed.

Section tree.
  Context (g : list (list nat)) (root : nat) (par dep : nat -> nat) (Ht : rtree g root par dep).
  Notation n := (length g).
  Notation child := (child g root par).
  Notation subtree := (subtree g par dep).
  Notation sz := (sz g par dep).
  (** One step less for a vertex with a parent, two for the root *)
  Definition less (u : nat) : nat := if u =? root then 2 else 1.

  Lemma sz_root : sz root = n.
  Proof.
    unfold HldTree.sz. transitivity (length (seq 0 n)); [|apply seq_length]. apply Permutation_length, NoDup_Permutation; [apply NoDup_subtree|apply NoDup_seq|].
    intros v. rewrite (elem_subtree g root par dep Ht), elem_of_seq. split; [lia|]. intros H. split; [lia|]. eapply anc_root; [exact Ht|lia].
  Qed.
  Lemma sum_kids K p es : NoDup es ->
    sum_list_with (fun v => if v =? p then 1 else K * sz v) es = K * length (concat (map subtree (filter (fun v => v <> p) es))) + (if bool_decide (p ∈ es) then 1 else 0).
  Proof.
    induction es as [|v es IH]; intros Hn; [cbn; rewrite bool_decide_eq_false_2 by (intros H; inversion H); lia|]. apply NoDup_cons in Hn as [Hv Hn]. cbn [sum_list_with]. rewrite (IH Hn). destruct (Nat.eqb_spec v p) as [->|Hne].
    - rewrite filter_cons_False by tauto. rewrite bool_decide_eq_false_2 by exact Hv. rewrite bool_decide_eq_true_2 by left. lia.
    - rewrite filter_cons_True by exact Hne. cbn [map concat]. rewrite app_length. unfold HldTree.sz at 1.
      rewrite (bool_decide_ext (p ∈ v :: es) (p ∈ es)); [lia|]. rewrite elem_of_cons. split; [intros [->|H]; [contradiction|exact H]|auto].
  Qed.
  Lemma kids_cost K u es : u < n -> g !! u = Some es ->
    sum_list_with (fun v => if v =? par u then 1 else K * sz v) es + 2 = K * (sz u - 1) + (4 - less u).
  Proof.
    intros Hu Hes. pose proof (t_nodup _ _ _ _ Ht u es Hes) as Hnd. rewrite (sum_kids K (par u) es Hnd).
    assert (forall c, c ∈ filter (fun v => v <> par u) es <-> child u c) as Hkids.
    { intros c. rewrite elem_of_list_filter. rewrite <- (adj_children _ _ _ _ Ht u es c Hu Hes). tauto. }
    pose proof (Permutation_length (subtree_perm g root par dep Ht u (filter (fun v => v <> par u) es) Hu ltac:(apply NoDup_filter; exact Hnd) Hkids)) as Hl. cbn [length] in Hl.
    unfold HldTree.sz. rewrite Hl. cbn [length]. rewrite Nat.sub_succ, Nat.sub_0_r. unfold less. destruct (Nat.eqb_spec u root) as [->|Hne].
    - rewrite bool_decide_eq_false_2; [lia|]. intros H. apply (t_adj _ _ _ _ Ht root es _ Hes) in H. rewrite (t_root_par _ _ _ _ Ht) in H. tauto.
    - rewrite bool_decide_eq_true_2; [lia|]. apply (t_adj _ _ _ _ Ht u es _ Hes). auto.
  Qed.
  Lemma kid_of u es v : u < n -> g !! u = Some es -> v ∈ es -> v <> par u -> child u v.
  Proof. intros Hu Hes Hv Hp. apply (adj_children _ _ _ _ Ht u es v Hu Hes). auto. Qed.
  Lemma less_kid u v : child u v -> less v = 1.
  Proof. intros (_ & H & _). unfold less. apply Nat.eqb_neq in H. rewrite H. reflexivity. Qed.
  Lemma less_pos u : 1 <= less u <= 2.
  Proof. unfold less. destruct (u =? root); lia. Qed.

  (** *** Binary lifting *)
  Section lift.
    Context (level : nat) (Hlev : 1 <= level).
    Lemma enter_costs u p b t : bl_level b = level ->
      costs (bl_enterW u p (b, t)) (bl_enter u p (b, t)) (fun _ => 1 + level) /\ forall st, bl_enter u p (b, t) = Ok st -> bl_level st.1 = level.
    Proof.
      intros Hl. split.
      - unfold bl_enterW, bl_enter. eapply (costs_tick _ _ _ (fun _ => level)); [|reflexivity]. apply costs_lift_bind. intros tin _.
        eapply (costs_tick _ _ _ (fun _ => level - 1)); [|intros; lia]. apply costs_lift_bind. intros pa _. rewrite Hl. eapply costs_bind.
        + apply (costs_for_const 1). intros i s. eapply costs_tick; [|reflexivity]. apply costs_lift_bind. intros w _. apply costs_lift_bind. intros x _. apply costs_lift.
        + intros pa' _. eexists. split; [apply costs_ret|]. intros. unfold range. rewrite seq_length. lia.
      - intros st E. unfold bl_enter in E. apply rbind_ok_inv in E as (tin & _ & E). apply rbind_ok_inv in E as (pa & _ & E). apply rbind_ok_inv in E as (pa' & _ & E). injection E as <-. exact Hl.
    Qed.
    Lemma bl_costs : forall fuel u st, u < n -> bl_level st.1 = level ->
      costs (bl_dfsW fuel g u (par u) st) (bl_dfs fuel g u (par u) st) (fun _ => (level + 3) * sz u - less u) /\
      forall st', bl_dfs fuel g u (par u) st = Ok st' -> bl_level st'.1 = level.
    Proof.
      induction fuel as [|fuel IH]; intros u [b t] Hu Hl; cbn [bl_dfsW bl_dfs]; [split; [intros w; reflexivity|discriminate]|]. cbn [fst] in Hl.
      destruct (enter_costs u (par u) b t Hl) as [C0 L0]. destruct (lookup_lt_is_Some_2 g u Hu) as [es Hes].
      assert (forall st, bl_level st.1 = level -> costs (efor es (bl_edgeW (bl_dfsW fuel g) u (par u)) st) (rfor es (bl_edge (bl_dfs fuel g) u (par u)) st)
        (fun _ => sum_list_with (fun v => if v =? par u then 1 else (level + 3) * sz v) es) /\
        forall st', rfor es (bl_edge (bl_dfs fuel g) u (par u)) st = Ok st' -> bl_level st'.1 = level) as HL.
      { apply (costs_for_sum (fun st : bl * nat => bl_level st.1 = level)). intros v [b1 t1] Hv Hl1. cbn [fst] in Hl1. unfold bl_edgeW, bl_edge. destruct (Nat.eqb_spec v (par u)) as [->|Hne].
        - split; [eapply costs_tick; [apply costs_ret|reflexivity]|]. intros st' [= <-]. exact Hl1.
        - pose proof (kid_of u es v Hu Hes Hv Hne) as Hc. pose proof (less_kid u v Hc) as Hlk. destruct Hc as (Hvn & _ & <-). pose proof (sz_pos g root par dep Ht v Hvn) as Hp. split.
          + eapply (costs_tick _ _ _ (fun _ => (level + 3) * sz v - 1)); [|intros; nia]. apply costs_lift_bind. intros du _. apply costs_lift_bind. intros dp _. match goal with |- costs (bl_dfsW _ _ _ _ ?s) _ _ => destruct (IH v s Hvn Hl1) as [CI _]; rewrite Hlk in CI; exact CI end.
          + intros st' E. apply rbind_ok_inv in E as (du & _ & E). apply rbind_ok_inv in E as (dp & _ & E). eapply IH; [exact Hvn| |exact E]. exact Hl1. }
      split.
      - eapply costs_bind; [exact C0|]. intros st1 E1. specialize (HL st1 (L0 st1 E1)) as [C1 _]. exists (fun _ => (level + 3) * sz u - less u - (1 + level)). split.
        + apply costs_lift_bind. intros es' Ee. rewrite (vget_ok _ _ _ Hes) in Ee. injection Ee as <-. eapply costs_bind; [exact C1|]. intros [b2 t2] _.
          eexists. split; [apply costs_lift_bind; intros tout _; apply costs_ret|]. intros. cbn beta. pose proof (kids_cost (level + 3) u es Hu Hes) as Hk. pose proof (sz_pos g root par dep Ht u Hu). pose proof (less_pos u).
          revert Hk. generalize (sum_list_with (fun v => if v =? par u then 1 else (level + 3) * sz v) es). intros q Hk. replace (sz u) with (S (sz u - 1)) by lia. rewrite Nat.mul_succ_r. lia.
        + intros st2 _. cbn beta. pose proof (sz_pos g root par dep Ht u Hu). pose proof (less_pos u). replace (sz u) with (S (sz u - 1)) by lia. rewrite Nat.mul_succ_r. lia.
      - intros st' E. apply rbind_ok_inv in E as (st1 & E1 & E). apply rbind_ok_inv in E as (es' & Ee & E). rewrite (vget_ok _ _ _ Hes) in Ee. injection Ee as <-.
        apply rbind_ok_inv in E as ([b2 t2] & E2 & E). apply rbind_ok_inv in E as (tout & _ & E). injection E as <-. exact (proj2 (HL st1 (L0 st1 E1)) _ E2).
    Qed.
  End lift.

  (** *** HLD, first search *)
  Definition keeps (u : nat) (h h' : hl) : Prop := h_parent h' !! u = Some (par u) /\ forall v, ~ anc par u v -> h_parent h' !! v = h_parent h !! v.
  Lemma dfs1_costs : forall fuel u h, u < n -> h_parent h !! u = Some (par u) ->
    costs (dfs1W fuel g u h) (dfs1 fuel g u h) (fun _ => 3 * sz u - less u) /\ forall x, dfs1 fuel g u h = Ok x -> keeps u h x.1.
  Proof.
    induction fuel as [|fuel IH]; intros u h Hu Hp; cbn [dfs1W dfs1]; [split; [intros w; reflexivity|discriminate]|]. destruct (lookup_lt_is_Some_2 g u Hu) as [es Hes].
    assert (costs (efor es (dfs1_edgeW (dfs1W fuel g) u) (h, 1, 0)) (rfor es (dfs1_edge (dfs1 fuel g) u) (h, 1, 0)) (fun _ => sum_list_with (fun v => if v =? par u then 1 else 3 * sz v) es) /\
      forall st', rfor es (dfs1_edge (dfs1 fuel g) u) (h, 1, 0) = Ok st' -> keeps u h st'.1.1) as [CL PL].
    { apply (costs_for_sum (fun st : hl * nat * nat => keeps u h st.1.1)); [|split; [exact Hp|reflexivity]]. intros v [[h1 size] mx] Hv [K1 K2]. cbn [fst] in K1, K2. unfold dfs1_edgeW, dfs1_edge.
      rewrite (vget_ok _ _ _ K1). destruct (Nat.eqb_spec v (par u)) as [->|Hne].
      - split.
        + eapply costs_tick; [|reflexivity]. intros w. cbn. rewrite Nat.eqb_refl, Nat.add_0_r. reflexivity.
        + cbn [mbind res_bind]. rewrite Nat.eqb_refl. intros st' [= <-]. split; [exact K1|exact K2].
      - pose proof (kid_of u es v Hu Hes Hv Hne) as Hc. pose proof (less_kid u v Hc) as Hlk. pose proof (child_not_anc _ _ _ _ Ht u v Hc) as Hnu. pose proof (child_anc _ _ _ u v Hc) as Hca.
        pose proof Hc as (Hvn & _ & Hpv). pose proof (sz_pos g root par dep Ht v Hvn) as Hsp. assert (v =? par u = false) as Eb by (apply Nat.eqb_neq; exact Hne).
        assert (forall parent dp, vset (h_parent h1) v u = Ok parent -> costs (dfs1W fuel g v (HL parent dp (h_heavy h1) (h_head h1) (h_pos h1) (h_posr h1)))
           (dfs1 fuel g v (HL parent dp (h_heavy h1) (h_head h1) (h_pos h1) (h_posr h1))) (fun _ => 3 * sz v - 1) /\
           forall x, dfs1 fuel g v (HL parent dp (h_heavy h1) (h_head h1) (h_pos h1) (h_posr h1)) = Ok x -> keeps u h x.1) as HR.
        { intros parent dp E. unfold vset in E. case_decide as Hlt; [|discriminate]. injection E as <-. destruct (IH v (HL (<[v:=u]> (h_parent h1)) dp (h_heavy h1) (h_head h1) (h_pos h1) (h_posr h1)) Hvn) as [C1 P1].
          - cbn. rewrite list_lookup_insert by exact Hlt. rewrite Hpv. reflexivity.
          - rewrite Hlk in C1. split; [exact C1|]. intros x E. destruct (P1 x E) as [Q1 Q2]. cbn in Q2. split.
            + rewrite (Q2 u Hnu), list_lookup_insert_ne; [exact K1|]. intros ->. apply Hnu, anc_refl.
            + intros z Hz. assert (~ anc par v z) as Hz' by (intros H; apply Hz; eapply anc_trans; eauto). rewrite (Q2 z Hz'), list_lookup_insert_ne; [apply K2; exact Hz|]. intros ->. apply Hz'. apply anc_refl. }
        split.
        + eapply (costs_tick _ _ _ (fun _ => 3 * sz v - 1)); [|intros; lia]. apply costs_lift_bind. intros p [= <-]. rewrite Eb. apply costs_lift_bind. intros parent Ep. apply costs_lift_bind. intros du _.
          apply costs_lift_bind. intros dp _. eapply costs_bind; [apply HR; exact Ep|]. intros [h2 cs] _. exists (fun _ => 0). split; [|intros; lia].
          destruct (mx <? cs); [apply costs_lift_bind; intros hv _; apply costs_ret|apply costs_ret].
        + intros st'. cbn [mbind res_bind]. rewrite Eb. intros E. apply rbind_ok_inv in E as (parent & Ep & E). apply rbind_ok_inv in E as (du & _ & E). apply rbind_ok_inv in E as (dp & _ & E).
          apply rbind_ok_inv in E as ([h2 cs] & Er & E). destruct (HR parent dp Ep) as [_ P2]. specialize (P2 _ Er). cbn [fst] in P2.
          destruct (mx <? cs); [apply rbind_ok_inv in E as (hv & _ & E)|]; injection E as <-; exact P2. }
    split.
    - eapply (costs_tick _ _ _ (fun _ => 3 * sz u - less u - 1)).
      + apply costs_lift_bind. intros es' Ee. rewrite (vget_ok _ _ _ Hes) in Ee. injection Ee as <-. eapply costs_bind; [exact CL|]. intros [[h1 size] mx] _. eexists. split; [apply costs_ret|].
        intros. cbn beta. pose proof (kids_cost 3 u es Hu Hes) as Hk. pose proof (sz_pos g root par dep Ht u Hu). pose proof (less_pos u). lia.
      + intros. pose proof (sz_pos g root par dep Ht u Hu). pose proof (less_pos u). lia.
    - intros x E. apply rbind_ok_inv in E as (es' & Ee & E). rewrite (vget_ok _ _ _ Hes) in Ee. injection Ee as <-. apply rbind_ok_inv in E as ([[h1 size] mx] & E1 & E). injection E as <-. exact (PL _ E1).
  Qed.

  (** *** HLD, second search *)
  Section second.
    Context (pa : list nat) (hva : list (option nat)) (hv : nat -> option nat).
    Context (Hpa : forall v, v < n -> pa !! v = Some (par v)) (Hhva : forall v, v < n -> hva !! v = Some (hv v)) (Hhv : forall v c, v < n -> hv v = Some c -> child v c).
    Lemma sum_heavy p c es : NoDup es -> c ∈ es -> c <> p -> 0 < sz c ->
      3 * sz c - 1 + sum_list_with (fun v => if v =? p then 1 else if v =? c then 1 else 3 * sz v) es = sum_list_with (fun v => if v =? p then 1 else 3 * sz v) es.
    Proof.
      intros Hn Hc Hp Hs. induction es as [|v es IH]; [inversion Hc|]. apply NoDup_cons in Hn as [Hv Hn]. cbn [sum_list_with]. destruct (decide (v = c)) as [->|Hne].
      - assert (sum_list_with (fun v => if v =? p then 1 else if v =? c then 1 else 3 * sz v) es = sum_list_with (fun v => if v =? p then 1 else 3 * sz v) es) as ->.
        { clear -Hv. induction es as [|x es IH]; [reflexivity|]. cbn [sum_list_with]. rewrite not_elem_of_cons in Hv. destruct Hv as [Hx Hv]. rewrite (IH Hv). f_equal.
          destruct (Nat.eqb_spec x c) as [->|_]; [congruence|reflexivity]. }
        rewrite Nat.eqb_refl. destruct (Nat.eqb_spec c p) as [->|_]; [contradiction|]. lia.
      - apply elem_of_cons in Hc as [->|Hc]; [contradiction|]. specialize (IH Hn Hc). destruct (Nat.eqb_spec v c) as [->|_]; [contradiction|]. lia.
    Qed.
    Definition keeps2 (h : hl) : Prop := h_parent h = pa /\ h_heavy h = hva.
    Lemma dfs2_costs : forall fuel u head st, u < n -> keeps2 st.1 ->
      costs (dfs2W fuel g u head st) (dfs2 fuel g u head st) (fun _ => 3 * sz u - less u) /\ forall x, dfs2 fuel g u head st = Ok x -> keeps2 x.1.
    Proof.
      induction fuel as [|fuel IH]; intros u head [h t] Hu [K1 K2]; cbn [dfs2W dfs2]; [split; [intros w; reflexivity|discriminate]|]. cbn [fst] in K1, K2. destruct (lookup_lt_is_Some_2 g u Hu) as [es Hes].
      assert (forall st, keeps2 st.1 -> costs (efor es (dfs2_edgeW (dfs2W fuel g) u) st) (rfor es (dfs2_edge (dfs2 fuel g) u) st)
          (fun _ => sum_list_with (fun v => if v =? par u then 1 else if bool_decide (Some v = hv u) then 1 else 3 * sz v) es) /\
          forall st', rfor es (dfs2_edge (dfs2 fuel g) u) st = Ok st' -> keeps2 st'.1) as HL.
      { apply (costs_for_sum (fun st : hl * nat => keeps2 st.1)). intros v st Hv [Q1 Q2]. unfold dfs2_edgeW, dfs2_edge. rewrite Q1, Q2, (vget_ok _ _ _ (Hpa u Hu)), (vget_ok _ _ _ (Hhva u Hu)).
        destruct (Nat.eqb_spec v (par u)) as [->|Hne].
        - split; [|cbn [mbind res_bind]; rewrite Nat.eqb_refl; intros st' [= <-]; split; assumption]. eapply costs_tick; [|reflexivity]. intros w. cbn. rewrite Nat.eqb_refl, Nat.add_0_r. reflexivity.
        - assert (v =? par u = false) as Eb by (apply Nat.eqb_neq; exact Hne). pose proof (kid_of u es v Hu Hes Hv Hne) as Hc. pose proof (less_kid u v Hc) as Hlk. pose proof Hc as (Hvn & _ & Hpv).
          pose proof (sz_pos g root par dep Ht v Hvn) as Hsp. destruct (IH v v st Hvn (conj Q1 Q2)) as [C1 P1]. rewrite Hlk in C1.
          cbn [mbind res_bind]. rewrite Eb. destruct (bool_decide (Some v = hv u)) eqn:Ed.
          + split; [|intros st' [= <-]; split; assumption]. eapply costs_tick; [|reflexivity]. intros w. unfold ebind, elift. cbn [mbind res_bind]. rewrite Eb. cbn [mbind res_bind]. rewrite Ed. cbn. rewrite Nat.add_0_r. reflexivity.
          + split; [|exact P1]. eapply (costs_tick _ _ _ (fun _ => 3 * sz v - 1)); [|intros; lia]. intros w. unfold ebind, elift. cbn [mbind res_bind]. rewrite Eb. cbn [mbind res_bind]. rewrite Ed. apply C1. }
      assert (forall st, keeps2 st.1 -> costs (match hv u with Some v => dfs2W fuel g v head st | None => eret st end) (match hv u with Some v => dfs2 fuel g v head st | None => Ok st end)
          (fun _ => match hv u with Some c => 3 * sz c - 1 | None => 0 end) /\
          forall st', match hv u with Some v => dfs2 fuel g v head st | None => Ok st end = Ok st' -> keeps2 st'.1) as HH.
      { intros st Hst. destruct (hv u) as [c|] eqn:Ec.
        - pose proof (Hhv u c Hu Ec) as Hc. destruct (IH c head st (proj1 Hc) Hst) as [C1 P1]. rewrite (less_kid u c Hc) in C1. auto.
        - split; [apply costs_ret|]. intros st' [= <-]. exact Hst. }
      assert (match hv u with Some c => 3 * sz c - 1 | None => 0 end + sum_list_with (fun v => if v =? par u then 1 else if bool_decide (Some v = hv u) then 1 else 3 * sz v) es =
        sum_list_with (fun v => if v =? par u then 1 else 3 * sz v) es) as HS.
      { destruct (hv u) as [c|] eqn:Ec.
        - pose proof (Hhv u c Hu Ec) as Hc. pose proof Hc as (Hcn & _). apply (adj_children _ _ _ _ Ht u es c Hu Hes) in Hc as [Hin Hp].
          rewrite <- (sum_heavy (par u) c es (t_nodup _ _ _ _ Ht u es Hes) Hin Hp (sz_pos g root par dep Ht c Hcn)). f_equal. clear. induction es as [|x es IH]; [reflexivity|]. cbn [sum_list_with]. rewrite IH. f_equal.
          destruct (x =? par u); [reflexivity|]. destruct (Nat.eqb_spec x c) as [->|Hne]; [rewrite bool_decide_eq_true_2 by reflexivity; reflexivity|]. rewrite bool_decide_eq_false_2 by congruence. reflexivity.
        - reflexivity. }
      pose proof (kids_cost 3 u es Hu Hes) as Hk. pose proof (sz_pos g root par dep Ht u Hu) as Hsp. pose proof (less_pos u) as Hlp. split.
      - eapply (costs_tick _ _ _ (fun _ => 3 * sz u - less u - 1)); [|intros; lia]. apply costs_lift_bind. intros hd _. apply costs_lift_bind. intros pos _. cbn [h_heavy]. rewrite K2, (vget_ok _ _ _ (Hhva u Hu)).
        apply costs_lift_bind. intros hc [= <-].
        match goal with |- costs (ebind (match hv u with Some v => dfs2W fuel g v head ?s | None => _ end) _) _ _ => destruct (HH s) as [C1 P1]; [split; [exact K1|reflexivity]|] end.
        eapply costs_bind; [exact C1|]. intros st1 E1. exists (fun _ => sum_list_with (fun v => if v =? par u then 1 else if bool_decide (Some v = hv u) then 1 else 3 * sz v) es). split; [|intros; lia].
        apply costs_lift_bind. intros es' Ee. rewrite (vget_ok _ _ _ Hes) in Ee. injection Ee as <-. destruct (HL st1 (P1 st1 E1)) as [C2 _]. eapply costs_bind; [exact C2|]. intros [h2 t2] _.
        exists (fun _ => 0). split; [|intros; cbn beta; lia]. apply costs_lift_bind. intros posr _. apply costs_ret.
      - intros x E. apply rbind_ok_inv in E as (hd & _ & E). apply rbind_ok_inv in E as (pos & _ & E). cbn [h_heavy] in E. rewrite K2, (vget_ok _ _ _ (Hhva u Hu)) in E. cbn [mbind res_bind] in E.
        apply rbind_ok_inv in E as (st1 & E1 & E). apply HH in E1; [|split; [exact K1|reflexivity]]. apply rbind_ok_inv in E as (es' & Ee & E). rewrite (vget_ok _ _ _ Hes) in Ee. injection Ee as <-.
        apply rbind_ok_inv in E as ([h2 t2] & E2 & E). apply (HL st1 E1) in E2. apply rbind_ok_inv in E as (posr & _ & E). injection E as <-. exact E2.
    Qed.
  End second.
End tree.
