(** Depth-first searches on trees: how deep the calls nest. *)
From Verif Require Import Prelude UtilModel Eff TreeSpec TreeProof LiftModel LiftProof HldModel HldTree AhoWorkSpec AhoWorkProof TreeWorkModel TreeWorkSpec TreeWorkProof.

(** Out of fuel, or the same *)
Definition upto {A} (r r' : res A) : Prop := r = Diverge \/ r = r'.
Lemma upto_refl {A} (r : res A) : upto r r.
Proof. right. reflexivity. Qed.
Lemma upto_bind {A B} (r r' : res A) (f f' : A -> res B) : upto r r' -> (forall a, upto (f a) (f' a)) -> upto (r ≫= f) (r' ≫= f').
Proof. intros [->| ->] H; [left; reflexivity|]. destruct r' as [a| |]; cbn; [apply H|right; reflexivity|left; reflexivity]. Qed.
Lemma upto_same {A B} (r : res A) (f f' : A -> res B) : (forall a, upto (f a) (f' a)) -> upto (r ≫= f) (r ≫= f').
Proof. intros H. apply upto_bind; [apply upto_refl|exact H]. Qed.
Lemma upto_for {A S} (xs : list A) (b b' : A -> S -> res S) : (forall x s, upto (b x s) (b' x s)) -> forall s, upto (rfor xs b s) (rfor xs b' s).
Proof. intros H. induction xs as [|x xs IH]; intros s; cbn; [apply upto_refl|]. apply upto_bind; [apply H|exact IH]. Qed.

(** Under an invariant of the loop: equal bodies, and a body that answered for every element *)
Lemma rfor_eq {A S} (P : S -> Prop) (b b' : A -> S -> res S) xs :
  (forall x s, x ∈ xs -> P s -> b x s = b' x s) -> (forall x s s', x ∈ xs -> P s -> b' x s = Ok s' -> P s') -> forall s, P s -> rfor xs b s = rfor xs b' s.
Proof.
  induction xs as [|x xs IH]; intros H1 H2 s Hs; [reflexivity|]. cbn. rewrite (H1 x s) by (auto; left). destruct (b' x s) as [s'| |] eqn:E; cbn; [|reflexivity|reflexivity].
  apply IH; [intros y t Hy; apply H1; right; exact Hy|intros y t t' Hy; apply H2; right; exact Hy|]. eapply H2; [left|exact Hs|exact E].
Qed.
Lemma rfor_all {A S} (P : S -> Prop) (b : A -> S -> res S) xs :
  (forall x s s', x ∈ xs -> P s -> b x s = Ok s' -> P s') -> forall s s', P s -> rfor xs b s = Ok s' -> forall x, x ∈ xs -> exists s1 s2, P s1 /\ b x s1 = Ok s2.
Proof.
  induction xs as [|x xs IH]; intros H s s' Hs E y Hy; [inversion Hy|]. cbn in E. apply rbind_ok_inv in E as (s1 & E1 & E). apply elem_of_cons in Hy as [->|Hy]; [exists s, s1; auto|].
  eapply (IH (fun z t t' Hz => H z t t' ltac:(right; exact Hz)) s1 s'); [|exact E|exact Hy]. eapply H; [left|exact Hs|exact E1].
Qed.

(** More fuel changes no answer *)
Lemma bl_upto g k : forall fuel u p st, upto (bl_dfs fuel g u p st) (bl_dfs (fuel + k) g u p st).
Proof.
  induction fuel as [|fuel IH]; intros u p st; [left; reflexivity|]. cbn [Nat.add bl_dfs]. apply upto_same. intros st1. apply upto_same. intros es. apply upto_bind.
  - apply upto_for. intros v [b t]. unfold bl_edge. destruct (v =? p); [apply upto_refl|]. apply upto_same. intros du. apply upto_same. intros dp. apply IH.
  - intros [b t]. apply upto_refl.
Qed.
Lemma dfs1_upto g k : forall fuel u h, upto (dfs1 fuel g u h) (dfs1 (fuel + k) g u h).
Proof.
  induction fuel as [|fuel IH]; intros u h; [left; reflexivity|]. cbn [Nat.add dfs1]. apply upto_same. intros es. apply upto_bind.
  - apply upto_for. intros v [[h1 size] mx]. unfold dfs1_edge. apply upto_same. intros p. destruct (v =? p); [apply upto_refl|]. apply upto_same. intros pa. apply upto_same. intros du. apply upto_same. intros dp.
    apply upto_bind; [apply IH|]. intros [h2 cs]. apply upto_refl.
  - intros [[h1 size] mx]. apply upto_refl.
Qed.
Lemma dfs2_upto g k : forall fuel u hd st, upto (dfs2 fuel g u hd st) (dfs2 (fuel + k) g u hd st).
Proof.
  induction fuel as [|fuel IH]; intros u hd [h t]; [left; reflexivity|]. cbn [Nat.add dfs2]. apply upto_same. intros hd'. apply upto_same. intros pos. apply upto_same. intros hc. apply upto_bind.
  - destruct hc as [v|]; [apply IH|apply upto_refl].
  - intros st1. apply upto_same. intros es. apply upto_bind.
    + apply upto_for. intros v st2. unfold dfs2_edge. apply upto_same. intros p. destruct (v =? p); [apply upto_refl|]. apply upto_same. intros hc'. destruct (bool_decide (Some v = hc')); [apply upto_refl|]. apply IH.
    + intros [h2 t2]. apply upto_refl.
Qed.

Section tree.
  Context (g : list (list nat)) (root : nat) (par dep : nat -> nat) (Ht : rtree g root par dep).
  Notation n := (length g).
  Notation child := (child g root par).

  Definition shallow (u fuel : nat) : Prop := forall v, v < n -> anc par u v -> dep v < dep u + fuel.
  Lemma shallow_0 u : u < n -> ~ shallow u 0.
  Proof. intros Hu H. specialize (H u Hu (anc_refl _ _)). lia. Qed.
  Lemma shallow_kid u c fuel : child u c -> shallow u (S fuel) -> shallow c fuel.
  Proof.
    intros Hc H v Hv A. pose proof (child_dep _ _ _ _ Ht u c Hc) as Hd. assert (anc par u v) as A' by (eapply anc_trans; [eapply child_anc; exact Hc|exact A]). specialize (H v Hv A'). lia.
  Qed.
  Lemma shallow_kids u fuel : u < n -> (forall c, child u c -> shallow c fuel) -> shallow u (S fuel).
  Proof.
    intros Hu H v Hv A. apply (anc_split _ _ _ _ Ht u v Hv) in A as [->|(c & Hc & A)]; [lia|]. specialize (H c Hc v Hv A). rewrite (child_dep _ _ _ _ Ht u c Hc) in H. lia.
  Qed.
  Lemma kid_in u c es : u < n -> g !! u = Some es -> child u c -> c ∈ es /\ c <> par u /\ c < n.
  Proof. intros Hu Hes Hc. pose proof (proj1 Hc). apply (adj_children _ _ _ _ Ht u es c Hu Hes) in Hc. tauto. Qed.

  Lemma bl_same k : forall fuel u st, u < n -> shallow u fuel -> bl_dfs fuel g u (par u) st = bl_dfs (fuel + k) g u (par u) st.
  Proof.
    induction fuel as [|fuel IH]; intros u st Hu Hs; [exfalso; exact (shallow_0 u Hu Hs)|]. cbn [Nat.add bl_dfs]. destruct (lookup_lt_is_Some_2 g u Hu) as [es Hes].
    destruct (bl_enter u (par u) st) as [st1| |]; cbn [mbind res_bind]; [|reflexivity|reflexivity]. rewrite (vget_ok _ _ _ Hes). cbn [mbind res_bind].
    rewrite (rfor_eq (fun _ => True) (bl_edge (bl_dfs fuel g) u (par u)) (bl_edge (bl_dfs (fuel + k) g) u (par u)) es); [reflexivity| |auto|exact I].
    intros v [b t] Hv _. unfold bl_edge. destruct (Nat.eqb_spec v (par u)) as [_|Hne]; [reflexivity|]. pose proof (kid_of _ _ _ _ Ht u es v Hu Hes Hv Hne) as Hc.
    destruct (vget (bl_dep b) u) as [du| |]; cbn [mbind res_bind]; [|reflexivity|reflexivity]. destruct (vset (bl_dep b) v (du + 1)) as [dp| |]; cbn [mbind res_bind]; [|reflexivity|reflexivity].
    pose proof Hc as (Hvn & _ & Hp). rewrite <- Hp. apply IH; [exact Hvn|]. eapply shallow_kid; eauto.
  Qed.
  Lemma bl_shallow : forall fuel u st st', u < n -> bl_dfs fuel g u (par u) st = Ok st' -> shallow u fuel.
  Proof.
    induction fuel as [|fuel IH]; intros u st st' Hu E; [discriminate|]. cbn [bl_dfs] in E. destruct (lookup_lt_is_Some_2 g u Hu) as [es Hes].
    apply rbind_ok_inv in E as (st1 & _ & E). rewrite (vget_ok _ _ _ Hes) in E. cbn [mbind res_bind] in E. apply rbind_ok_inv in E as (st2 & E2 & _). apply shallow_kids; [exact Hu|]. intros c Hc.
    destruct (kid_in u c es Hu Hes Hc) as (Hin & Hne & Hcn). destruct (rfor_all (fun _ => True) _ es ltac:(auto) st1 st2 I E2 c Hin) as ([b t] & s2 & _ & Ec). unfold bl_edge in Ec.
    apply Nat.eqb_neq in Hne. rewrite Hne in Ec. apply rbind_ok_inv in Ec as (du & _ & Ec). apply rbind_ok_inv in Ec as (dp & _ & Ec). pose proof Hc as (_ & _ & <-). exact (IH c _ _ Hcn Ec).
  Qed.

  (** The array of parents during the first search *)
  Lemma dfs1_turn_keeps fuel u h es v st st' : u < n -> g !! u = Some es -> v ∈ es -> keeps par u h st.1.1 -> dfs1_edge (dfs1 fuel g) u v st = Ok st' -> keeps par u h st'.1.1.
  Proof.
    intros Hu Hes Hv [K1 K2] E. destruct st as [[h1 size] mx]. cbn [fst] in K1, K2. unfold dfs1_edge in E. rewrite (vget_ok _ _ _ K1) in E. cbn [mbind res_bind] in E.
    destruct (Nat.eqb_spec v (par u)) as [_|Hne]; [injection E as <-; split; assumption|]. pose proof (kid_of _ _ _ _ Ht u es v Hu Hes Hv Hne) as Hc.
    pose proof (child_not_anc _ _ _ _ Ht u v Hc) as Hnu. pose proof (child_anc _ _ _ u v Hc) as Hca. pose proof Hc as (Hvn & _ & Hpv).
    apply rbind_ok_inv in E as (parent & Ep & E). apply rbind_ok_inv in E as (du & _ & E). apply rbind_ok_inv in E as (dp & _ & E). apply rbind_ok_inv in E as ([h2 cs] & Er & E).
    unfold vset in Ep. case_decide as Hlt; [|discriminate]. injection Ep as <-.
    destruct (dfs1_costs g root par dep Ht fuel v (HL (<[v:=u]> (h_parent h1)) dp (h_heavy h1) (h_head h1) (h_pos h1) (h_posr h1)) Hvn) as [_ P1].
    { cbn. rewrite list_lookup_insert by exact Hlt. rewrite Hpv. reflexivity. }
    destruct (P1 _ Er) as [Q1 Q2]. cbn [fst h_parent] in Q2. assert (keeps par u h h2) as HK.
    { split.
      - rewrite (Q2 u Hnu), list_lookup_insert_ne; [exact K1|]. intros ->. apply Hnu, anc_refl.
      - intros z Hz. assert (~ anc par v z) as Hz' by (intros H; apply Hz; eapply anc_trans; eauto). rewrite (Q2 z Hz'), list_lookup_insert_ne; [apply K2; exact Hz|]. intros ->. apply Hz'. apply anc_refl. }
    destruct (mx <? cs); [apply rbind_ok_inv in E as (hv & _ & E)|]; injection E as <-; exact HK.
  Qed.
  Lemma dfs1_same k : forall fuel u h, u < n -> h_parent h !! u = Some (par u) -> shallow u fuel -> dfs1 fuel g u h = dfs1 (fuel + k) g u h.
  Proof.
    induction fuel as [|fuel IH]; intros u h Hu Hp Hs; [exfalso; exact (shallow_0 u Hu Hs)|]. cbn [Nat.add dfs1]. destruct (lookup_lt_is_Some_2 g u Hu) as [es Hes].
    rewrite (vget_ok _ _ _ Hes). cbn [mbind res_bind].
    rewrite (rfor_eq (fun st : hl * nat * nat => keeps par u h st.1.1) (dfs1_edge (dfs1 fuel g) u) (dfs1_edge (dfs1 (fuel + k) g) u) es); [reflexivity| | |split; [exact Hp|reflexivity]].
    - intros v [[h1 size] mx] Hv [K1 K2]. cbn [fst] in K1, K2. unfold dfs1_edge. rewrite (vget_ok _ _ _ K1). cbn [mbind res_bind].
      destruct (Nat.eqb_spec v (par u)) as [_|Hne]; [reflexivity|]. pose proof (kid_of _ _ _ _ Ht u es v Hu Hes Hv Hne) as Hc. pose proof Hc as (Hvn & _ & Hpv).
      destruct (vset (h_parent h1) v u) as [parent| |] eqn:Ep; cbn [mbind res_bind]; [|reflexivity|reflexivity].
      destruct (vget (h_dep h1) u) as [du| |]; cbn [mbind res_bind]; [|reflexivity|reflexivity]. destruct (vset (h_dep h1) v (du + 1)) as [dp| |]; cbn [mbind res_bind]; [|reflexivity|reflexivity].
      rewrite IH; [reflexivity|exact Hvn| |eapply shallow_kid; eauto]. unfold vset in Ep. case_decide as Hlt; [|discriminate]. injection Ep as <-. cbn. rewrite list_lookup_insert by exact Hlt. rewrite Hpv. reflexivity.
    - intros v st st' Hv Hst. eapply dfs1_turn_keeps; eauto.
  Qed.
  Lemma dfs1_shallow : forall fuel u h x, u < n -> h_parent h !! u = Some (par u) -> dfs1 fuel g u h = Ok x -> shallow u fuel.
  Proof.
    induction fuel as [|fuel IH]; intros u h x Hu Hp E; [discriminate|]. cbn [dfs1] in E. destruct (lookup_lt_is_Some_2 g u Hu) as [es Hes]. rewrite (vget_ok _ _ _ Hes) in E. cbn [mbind res_bind] in E.
    apply rbind_ok_inv in E as (st2 & E2 & _). apply shallow_kids; [exact Hu|]. intros c Hc. destruct (kid_in u c es Hu Hes Hc) as (Hin & Hne & Hcn).
    destruct (rfor_all (fun st : hl * nat * nat => keeps par u h st.1.1) (dfs1_edge (dfs1 fuel g) u) es) with (s := (h, 1, 0)) (s' := st2) (x := c) as ([[h1 size] mx] & s2 & [K1 K2] & Ec); [|split; [exact Hp|reflexivity]|exact E2|exact Hin|].
    { intros v st st' Hv Hst. eapply dfs1_turn_keeps; eauto. }
    cbn [fst] in K1. unfold dfs1_edge in Ec. rewrite (vget_ok _ _ _ K1) in Ec. cbn [mbind res_bind] in Ec. apply Nat.eqb_neq in Hne. rewrite Hne in Ec.
    apply rbind_ok_inv in Ec as (parent & Ep & Ec). apply rbind_ok_inv in Ec as (du & _ & Ec). apply rbind_ok_inv in Ec as (dp & _ & Ec). apply rbind_ok_inv in Ec as (y & Ey & _).
    refine (IH c _ y Hcn _ Ey). unfold vset in Ep. case_decide as Hlt; [|discriminate]. injection Ep as <-. cbn. rewrite list_lookup_insert by exact Hlt. pose proof Hc as (_ & _ & ->). reflexivity.
  Qed.

  Section second.
    Context (pa : list nat) (hva : list (option nat)) (hv : nat -> option nat).
    Context (Hpa : forall v, v < n -> pa !! v = Some (par v)) (Hhva : forall v, v < n -> hva !! v = Some (hv v)) (Hhv : forall v c, v < n -> hv v = Some c -> child v c).
    Notation keeps2 := (keeps2 pa hva).
    Lemma dfs2_keeps fuel u hd st st' : u < n -> keeps2 st.1 -> dfs2 fuel g u hd st = Ok st' -> keeps2 st'.1.
    Proof. intros Hu Hk E. exact (proj2 (dfs2_costs g root par dep Ht pa hva hv Hpa Hhva Hhv fuel u hd st Hu Hk) st' E). Qed.
    Lemma dfs2_turn_keeps fuel u es v st st' : u < n -> g !! u = Some es -> v ∈ es -> keeps2 st.1 -> dfs2_edge (dfs2 fuel g) u v st = Ok st' -> keeps2 st'.1.
    Proof.
      intros Hu Hes Hv [K1 K2] E. unfold dfs2_edge in E. rewrite K1, K2, (vget_ok _ _ _ (Hpa u Hu)), (vget_ok _ _ _ (Hhva u Hu)) in E. cbn [mbind res_bind] in E.
      destruct (Nat.eqb_spec v (par u)) as [_|Hne]; [injection E as <-; split; assumption|]. destruct (bool_decide (Some v = hv u)); [injection E as <-; split; assumption|].
      eapply dfs2_keeps; [|split; [exact K1|exact K2]|exact E]. exact (proj1 (kid_of _ _ _ _ Ht u es v Hu Hes Hv Hne)).
    Qed.
    Lemma dfs2_same k : forall fuel u hd st, u < n -> keeps2 st.1 -> shallow u fuel -> dfs2 fuel g u hd st = dfs2 (fuel + k) g u hd st.
    Proof.
      induction fuel as [|fuel IH]; intros u hd [h t] Hu [K1 K2] Hs; [exfalso; exact (shallow_0 u Hu Hs)|]. cbn [Nat.add dfs2]. cbn [fst] in K1, K2. destruct (lookup_lt_is_Some_2 g u Hu) as [es Hes].
      destruct (vset (h_head h) u hd) as [hd'| |]; cbn [mbind res_bind]; [|reflexivity|reflexivity]. destruct (vset (h_pos h) u t) as [pos| |]; cbn [mbind res_bind h_heavy]; [|reflexivity|reflexivity].
      rewrite K2, (vget_ok _ _ _ (Hhva u Hu)). cbn [mbind res_bind].
      set (st0 := (HL (h_parent h) (h_dep h) hva hd' pos (h_posr h), t + 1)). assert (keeps2 st0.1) as Hk0 by (split; [exact K1|reflexivity]).
      assert ((match hv u with Some v => dfs2 fuel g v hd st0 | None => Ok st0 end) = (match hv u with Some v => dfs2 (fuel + k) g v hd st0 | None => Ok st0 end)) as ->.
      { destruct (hv u) as [c|] eqn:Ec; [|reflexivity]. pose proof (Hhv u c Hu Ec) as Hc. apply IH; [exact (proj1 Hc)|exact Hk0|eapply shallow_kid; eauto]. }
      destruct (match hv u with Some v => dfs2 (fuel + k) g v hd st0 | None => Ok st0 end) as [st1| |] eqn:E1; cbn [mbind res_bind]; [|reflexivity|reflexivity].
      assert (keeps2 st1.1) as Hk1.
      { destruct (hv u) as [c|] eqn:Ec; [|injection E1 as <-; exact Hk0]. eapply dfs2_keeps; [|exact Hk0|exact E1]. exact (proj1 (Hhv u c Hu Ec)). }
      rewrite (vget_ok _ _ _ Hes). cbn [mbind res_bind].
      rewrite (rfor_eq (fun st : hl * nat => keeps2 st.1) (dfs2_edge (dfs2 fuel g) u) (dfs2_edge (dfs2 (fuel + k) g) u) es); [reflexivity| | |exact Hk1].
      - intros v st Hv [Q1 Q2]. unfold dfs2_edge. rewrite Q1, Q2, (vget_ok _ _ _ (Hpa u Hu)), (vget_ok _ _ _ (Hhva u Hu)). cbn [mbind res_bind]. destruct (Nat.eqb_spec v (par u)) as [_|Hne]; [reflexivity|].
        destruct (bool_decide (Some v = hv u)); [reflexivity|]. pose proof (kid_of _ _ _ _ Ht u es v Hu Hes Hv Hne) as Hc. apply IH; [exact (proj1 Hc)|split; assumption|eapply shallow_kid; eauto].
      - intros v st st' Hv Hst. eapply dfs2_turn_keeps; eauto.
    Qed.
    Lemma dfs2_shallow : forall fuel u hd st x, u < n -> keeps2 st.1 -> dfs2 fuel g u hd st = Ok x -> shallow u fuel.
    Proof.
      induction fuel as [|fuel IH]; intros u hd [h t] x Hu [K1 K2] E; [discriminate|]. cbn [dfs2] in E. cbn [fst] in K1, K2. destruct (lookup_lt_is_Some_2 g u Hu) as [es Hes].
      apply rbind_ok_inv in E as (hd' & _ & E). apply rbind_ok_inv in E as (pos & _ & E). cbn [h_heavy] in E. rewrite K2, (vget_ok _ _ _ (Hhva u Hu)) in E. cbn [mbind res_bind] in E.
      apply rbind_ok_inv in E as (st1 & E1 & E). rewrite (vget_ok _ _ _ Hes) in E. cbn [mbind res_bind] in E. apply rbind_ok_inv in E as (st2 & E2 & _).
      set (st0 := (HL (h_parent h) (h_dep h) hva hd' pos (h_posr h), t + 1)) in *. assert (keeps2 st0.1) as Hk0 by (split; [exact K1|reflexivity]).
      assert (keeps2 st1.1) as Hk1.
      { destruct (hv u) as [c|] eqn:Ec; [|injection E1 as <-; exact Hk0]. eapply dfs2_keeps; [|exact Hk0|exact E1]. exact (proj1 (Hhv u c Hu Ec)). }
      apply shallow_kids; [exact Hu|]. intros c Hc. destruct (kid_in u c es Hu Hes Hc) as (Hin & Hne & Hcn). destruct (decide (hv u = Some c)) as [Ec|Hnc].
      - rewrite Ec in E1. exact (IH c hd st0 st1 Hcn Hk0 E1).
      - destruct (rfor_all (fun st : hl * nat => keeps2 st.1) (dfs2_edge (dfs2 fuel g) u) es) with (s := st1) (s' := st2) (x := c) as (s1 & s2 & [Q1 Q2] & Ex); [|exact Hk1|exact E2|exact Hin|].
        { intros v st st' Hv Hst. eapply dfs2_turn_keeps; eauto. }
        unfold dfs2_edge in Ex. rewrite Q1, Q2, (vget_ok _ _ _ (Hpa u Hu)), (vget_ok _ _ _ (Hhva u Hu)) in Ex. cbn [mbind res_bind] in Ex. apply Nat.eqb_neq in Hne. rewrite Hne in Ex.
        rewrite bool_decide_eq_false_2 in Ex by congruence. exact (IH c c s1 s2 Hcn (conj Q1 Q2) Ex).
    Qed.
  End second.

  Lemma closer_iff k : closer_than g root k <-> shallow root k.
  Proof.
    pose proof (t_root _ _ _ _ Ht) as Hr. pose proof (t_root_dep _ _ _ _ Ht) as Hd.
    assert (forall v, v < n -> is_dist g root v (dep v)) as HD.
    { intros v Hv. pose proof (dist_ok _ _ _ _ Ht root v root Hr Hv (lcap_anc par root v (anc_root _ _ _ _ Ht v Hv))) as H. rewrite Hd in H. replace (0 + dep v - 2 * 0) with (dep v) in H by lia. exact H. }
    split.
    - intros H v Hv _. rewrite Hd. exact (H v (dep v) Hv (HD v Hv)).
    - intros H v d Hv [_ Hmin]. specialize (H v Hv (anc_root _ _ _ _ Ht v Hv)). rewrite Hd in H. destruct (HD v Hv) as [(l & Hl & El) _]. specialize (Hmin l Hl). lia.
  Qed.
End tree.
