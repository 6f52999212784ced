(** Rerooting and forests with BinaryLifting::dfs: proofs. *)
From Verif Require Import Prelude UtilModel UtilProof TreeSpec CompSpec LiftModel LiftProof CompTree CompLift LiftDfsSpec.

(** *** dfs keeps the shape of the structure, whatever it is called with *)
Lemma pa_set_shape pa u i x pa' level : pa_set pa u i x = Ok pa' ->
  (forall v row, pa !! v = Some row -> length row = level) -> length pa' = length pa /\ forall v row, pa' !! v = Some row -> length row = level.
Proof.
  unfold pa_set. intros E H. apply rbind_ok_inv in E as (row & E1 & E). apply rbind_ok_inv in E as (row' & E2 & E).
  apply vget_ok_iff in E1. unfold vset in E2, E. repeat case_match; try discriminate. injection E2 as <-. injection E as <-.
  split; [apply insert_length|]. intros v r Hv. destruct (decide (v = u)) as [->|Hne].
  - rewrite list_lookup_insert in Hv by assumption. injection Hv as <-. rewrite insert_length. eauto.
  - rewrite list_lookup_insert_ne in Hv by auto. eauto.
Qed.
Lemma rfor_ok_inv {A B} (P : A -> Prop) (f : B -> A -> res A) (l : list B) : (forall x a a', P a -> f x a = Ok a' -> P a') ->
  forall a a', P a -> rfor l f a = Ok a' -> P a'.
Proof.
  intros H. induction l as [|x l IH]; cbn; intros a a' Ha E; [injection E as <-; exact Ha|].
  apply rbind_ok_inv in E as (a1 & E1 & E). eauto.
Qed.
Lemma vset_shape {A} (l l' : list A) i x : vset l i x = Ok l' -> length l' = length l.
Proof. unfold vset. case_match; [|discriminate]. intros E. injection E as <-. apply insert_length. Qed.

Lemma dfs_shape g level : forall fuel g' u p b t b' t', bwf g level b -> bl_dfs fuel g' u p (b, t) = Ok (b', t') -> bwf g level b'.
Proof.
  induction fuel as [|fuel IH]; intros g' u p b t b' t' W E; cbn [bl_dfs] in E; [discriminate|].
  apply rbind_ok_inv in E as ([b1 t1] & E1 & E). apply rbind_ok_inv in E as (es & _ & E). apply rbind_ok_inv in E as ([b2 t2] & E2 & E).
  apply rbind_ok_inv in E as (tout & E3 & E). injection E as <- <-.
  assert (bwf g level b1) as W1.
  { unfold bl_enter in E1. apply rbind_ok_inv in E1 as (tin & Et & E1). apply rbind_ok_inv in E1 as (pa & Ep & E1). apply rbind_ok_inv in E1 as (pa' & Ef & E1).
    injection E1 as <- <-. destruct W as [W1 W2 W3 W4 W5 W6]. apply vset_shape in Et. destruct (pa_set_shape _ _ _ _ _ level Ep W3) as [P1 P2].
    assert (length pa' = length g /\ forall v row, pa' !! v = Some row -> length row = level) as [Q1 Q2].
    { revert Ef. apply (rfor_ok_inv (fun pa => length pa = length g /\ forall v row, pa !! v = Some row -> length row = level)); [|split; [congruence|exact P2]].
      intros i q q' [A1 A2] E. apply rbind_ok_inv in E as (w & _ & E). apply rbind_ok_inv in E as (x & _ & E).
      destruct (pa_set_shape _ _ _ _ _ level E A2). split; [congruence|assumption]. }
    split; cbn; auto. congruence. }
  assert (bwf g level (b2, t2).1) as W2.
  { revert E2. apply (rfor_ok_inv (fun st : bl * nat => bwf g level st.1)); [|exact W1].
    intros v [c s] [c' s'] Hc E. unfold bl_edge in E. cbn [fst] in *. destruct (v =? p); [injection E as <- <-; exact Hc|].
    apply rbind_ok_inv in E as (du & _ & E). apply rbind_ok_inv in E as (dep & Ed & E). apply vset_shape in Ed.
    eapply IH; [|exact E]. destruct Hc. split; cbn; auto. congruence. }
  cbn in W2. apply vset_shape in E3. destruct W2. split; cbn; auto. congruence.
Qed.

Lemma bwf_len g g' level b : length g = length g' -> bwf g level b -> bwf g' level b.
Proof. intros E [W1 W2 W3 W4 W5 W6]. split; auto; congruence. Qed.

Lemma state_shape g b : 0 < length g -> (Z.of_nat (length g) < 2 ^ 64)%Z -> bl_state (length g) b -> bwf g (levels (length g)) b.
Proof.
  intros H0 H1 S. remember (length g) as n eqn:En. induction S as [g' root b Hg E|b fuel g' u p t b' t' S IH E]; subst n.
  - rewrite from_unfold in E by lia. apply rbind_ok_inv in E as ([b1 t1] & E & E'). injection E' as <-. rewrite Hg in E. cbn.
    eapply dfs_shape; [|exact E]. split; cbn; rewrite ?replicate_length; auto. intros v row Hv. apply lookup_replicate in Hv as [-> _]. apply replicate_length.
  - eapply dfs_shape; [|exact E]. auto.
Qed.

(** *** The answers on a tree that has been walked *)
Lemma walked_answers g r par dep level off t t' b : ctree g (reached g r) r par dep -> 1 <= level -> length g < 2 ^ level ->
  walked g (reached g r) r par dep level off t t' b ->
  (forall u v, reached g r u -> reached g r v ->
     (exists a, bl_is_ancestor b u v = Ok a /\ (a = true <-> ancestor g r u v)) /\
     (exists l, bl_lca b u v = Ok l /\ reached g r l /\ is_lca g r u v l) /\
     (exists d, bl_dis b u v = Ok d /\ is_dist g u v d)) /\
  (forall v, reached g r v -> exists d, bl_dep b !! v = Some (off + d) /\ is_dist g r v d).
Proof.
  intros Ht H1 H2 K. split.
  - intros u v Hu Hv. split; [|split].
    + destruct (is_anc_ok g _ r par dep Ht level H1 H2 off t t' b K u v Hu Hv) as (a & E1 & E2).
      exists a. split; [exact E1|]. rewrite E2. symmetry. apply (ancestor_iff g _ r par dep Ht); assumption.
    + destruct (lca_ok g _ r par dep Ht level H1 H2 off t t' b K u v Hu Hv) as (l & E1 & E2 & E3).
      exists l. split; [exact E1|]. split; [exact E2|]. apply (is_lca_iff g _ r par dep Ht); assumption.
    + exact (dis_ok g _ r par dep Ht level H1 H2 off t t' b K u v Hu Hv).
  - intros v Hv. exists (dep v). split; [exact (k_dep _ _ _ _ _ _ _ _ _ _ K v Hv)|].
    pose proof (dist_ok g _ r par dep Ht r v r (root_reached g r) Hv) as Hd.
    rewrite (t_root_dep _ _ _ _ _ Ht), Nat.mul_0_r, Nat.sub_0_r in Hd. apply Hd.
    apply lcap_anc. apply (anc_root g _ r par dep Ht). exact Hv.
Qed.

(** *** Two trees walked at different times *)
Section two.
  Context (g : list (list nat)) (level : nat) (Hl : 1 <= level) (Hp : length g < 2 ^ level) (b : bl).
  Context (r1 : nat) (C1 : nat -> Prop) (par1 dep1 : nat -> nat) (H1 : ctree g C1 r1 par1 dep1) (s1 e1 : nat) (K1 : walked g C1 r1 par1 dep1 level 0 s1 e1 b).
  Context (r2 : nat) (C2 : nat -> Prop) (par2 dep2 : nat -> nat) (H2 : ctree g C2 r2 par2 dep2) (s2 e2 : nat) (K2 : walked g C2 r2 par2 dep2 level 0 s2 e2 b).
  Context (Apart : e1 <= s2 \/ e2 <= s1).

  Lemma cross_anc u v : C1 u -> C2 v -> bl_is_ancestor b u v = Ok false /\ bl_is_ancestor b v u = Ok false.
  Proof.
    intros Hu Hv. destruct (k_fin _ _ _ _ _ _ _ _ _ _ K1 u Hu) as (_ & _ & a & o & A1 & A2 & A3 & A4 & A5).
    destruct (k_fin _ _ _ _ _ _ _ _ _ _ K2 v Hv) as (_ & _ & a' & o' & B1 & B2 & B3 & B4 & B5).
    unfold bl_is_ancestor. rewrite !(vget_ok _ _ _ A1), !(vget_ok _ _ _ B1), (vget_ok _ _ _ A2), (vget_ok _ _ _ B2). cbn [mbind res_bind].
    split; destruct (Nat.leb_spec a a'), (Nat.leb_spec a' a); try reflexivity; try lia; f_equal; apply Nat.ltb_ge; lia.
  Qed.
  Lemma cross_lca u v : C1 u -> C2 v -> bl_lca b u v = Ok r1.
  Proof.
    intros Hu Hv. destruct (cross_anc u v Hu Hv) as [E1 E2]. unfold bl_lca. rewrite E1. cbn [mbind res_bind]. rewrite E2. cbn [mbind res_bind].
    rewrite (w_level _ _ _ (k_wf _ _ _ _ _ _ _ _ _ _ K1)). unfold range.
    destruct (rfor_rev_range_inv (fun i x => C1 x /\ up par1 (2 ^ i) x = r1) 0 level
      (fun i u => x ← pa_get (bl_pa b) u i; a ← bl_is_ancestor b x v; if a : bool then Ok u else Ok x) u) as (x & E & Hx & A).
    - lia.
    - split; [exact Hu|]. apply (up_high _ _ _ _ _ H1); [exact Hu|]. pose proof (dep_lt _ _ _ _ _ H1 u Hu). lia.
    - intros i x Hi (Hx & A). rewrite (good_pa_get par1 level _ x i); [|apply (k_fin _ _ _ _ _ _ _ _ _ _ K1 x Hx)|lia]. cbn [mbind res_bind].
      assert (C1 (up par1 (2 ^ i) x)) as Hy by (apply (up_lt _ _ _ _ _ H1); exact Hx).
      rewrite (proj1 (cross_anc _ v Hy Hv)). cbn [mbind res_bind]. eexists. split; [reflexivity|]. split; [exact Hy|].
      rewrite <- up_add. rewrite <- A. f_equal. rewrite Nat.add_1_r, Nat.pow_succ_r'. lia.
    - rewrite E. cbn [mbind res_bind]. rewrite (good_pa_get par1 level _ x 0); [|apply (k_fin _ _ _ _ _ _ _ _ _ _ K1 x Hx)|lia]. f_equal. exact A.
  Qed.
  Lemma cross_dis u v : C1 u -> C2 v -> bl_dis b u v = Ok (dep1 u + dep2 v).
  Proof.
    intros Hu Hv. unfold bl_dis. rewrite (cross_lca u v Hu Hv). cbn [mbind res_bind].
    rewrite (vget_ok _ _ _ (k_dep _ _ _ _ _ _ _ _ _ _ K1 u Hu)). cbn [mbind res_bind].
    rewrite (vget_ok _ _ _ (k_dep _ _ _ _ _ _ _ _ _ _ K1 r1 (t_root _ _ _ _ _ H1))). cbn [mbind res_bind].
    rewrite (vget_ok _ _ _ (k_dep _ _ _ _ _ _ _ _ _ _ K2 v Hv)), (t_root_dep _ _ _ _ _ H1). unfold nsub. cbn [mbind res_bind Nat.add].
    change (0 <=? dep1 u) with true. cbn [mbind res_bind]. rewrite !Nat.sub_0_r. change (0 <=? dep1 u + dep2 v) with true. reflexivity.
  Qed.
End two.

(** *** Forests *)
Lemma walk_back g r u v l : tree_at g r -> reached g r u -> walk g u v l -> exists l', walk g v u l'.
Proof.
  intros T Hu W. destruct (tree_ctree g r T) as (par & dep & Ht). eexists. eapply (walk_rev g _ r par dep Ht); eauto.
Qed.
Lemma reached_trans g r x y : reached g r x -> reached g x y -> reached g r y.
Proof. intros [l1 W1] [l2 W2]. eexists. eapply walk_app; eauto. Qed.
Lemma share g r r' v : tree_at g r' -> reached g r v -> reached g r' v -> reached g r r'.
Proof.
  intros T H [l W]. eapply reached_trans; [exact H|]. destruct (walk_back g r' r' v l T (root_reached g r') W) as [l' W']. exists l'. exact W'.
Qed.

Section forest.
  Context (g : list (list nat)) (Hn : (Z.of_nat (length g) < 2 ^ 64)%Z) (H0 : 0 < length g).
  Notation lv := (levels (length g)).
  (** The trees of [rs] have been walked, one after the other; everything else has depth 0. *)
  Record fwalked (rs : list nat) (P D : nat -> nat -> nat) (s e : nat -> nat) (b : bl) (T : nat) : Prop := {
    f_wf : bwf g lv b;
    f_tree : forall r, r ∈ rs -> ctree g (reached g r) r (P r) (D r) /\ walked g (reached g r) r (P r) (D r) lv 0 (s r) (e r) b /\ e r <= T;
    f_apart : forall r r', r ∈ rs -> r' ∈ rs -> r <> r' -> e r <= s r' \/ e r' <= s r;
    f_rest : forall v, v < length g -> (forall r, r ∈ rs -> ~ reached g r v) -> bl_dep b !! v = Some 0 }.

  Lemma forest_step rs P D s e b T r : fwalked rs P D s e b T -> tree_at g r -> (forall r', r' ∈ rs -> ~ reached g r' r) ->
    exists b' T' P' D' s' e', bl_dfs (S (length g)) g r r (b, T) = Ok (b', T') /\ fwalked (rs ++ [r]) P' D' s' e' b' T'.
  Proof.
    intros [W F A Z] T0 Hnew. destruct (tree_ctree g r T0) as (par & dep & Ht). pose proof (levels_pos (length g)) as Hl. pose proof (levels_pow (length g) H0) as Hp.
    destruct (dfs_walked g _ r par dep Ht lv Hl Hp 0 b T W) as (b' & T' & E & K & S & l & _ & _ & Et).
    { apply Z; [exact (ta_root _ _ T0)|exact Hnew]. }
    exists b', T', (fun x => if decide (x = r) then par else P x), (fun x => if decide (x = r) then dep else D x),
      (fun x => if decide (x = r) then T else s x), (fun x => if decide (x = r) then T' else e x).
    split; [exact E|].
    assert (forall x, x ∈ rs -> x <> r) as Hne by (intros x Hx ->; exact (Hnew r Hx (root_reached g r))).
    split.
    - exact (k_wf _ _ _ _ _ _ _ _ _ _ K).
    - intros x Hx. apply elem_of_app in Hx as [Hx|Hx].
      + rewrite !decide_False by auto. destruct (F x Hx) as (F1 & F2 & F3). split; [exact F1|]. split; [|lia].
        eapply walked_same; [exact F1|exact (k_wf _ _ _ _ _ _ _ _ _ _ K)| |exact F2]. intros v Hv. apply S. intros Hr. apply (Hnew x Hx). eapply share; eauto.
      + apply elem_of_list_singleton in Hx as ->. rewrite !decide_True by reflexivity. auto.
    - intros x y Hx Hy Hxy. apply elem_of_app in Hx as [Hx|Hx]; apply elem_of_app in Hy as [Hy|Hy].
      + rewrite !decide_False by auto. auto.
      + apply elem_of_list_singleton in Hy as ->. rewrite decide_False, decide_True by auto. destruct (F x Hx) as (_ & _ & F3). auto.
      + apply elem_of_list_singleton in Hx as ->. destruct (F y Hy) as (_ & _ & F3). repeat case_decide; subst; auto; congruence.
      + apply elem_of_list_singleton in Hx as ->. apply elem_of_list_singleton in Hy as ->. congruence.
    - intros v Hv Ho. destruct (S v) as (_ & -> & _); [apply Ho; apply elem_of_app; right; apply elem_of_list_singleton; reflexivity|].
      apply Z; [exact Hv|]. intros x Hx. apply Ho. apply elem_of_app. auto.
  Qed.

  Lemma forest_steps rest : forall rs P D s e b T, fwalked rs P D s e b T -> NoDup (rs ++ rest) -> (forall r, r ∈ rs ++ rest -> tree_at g r) ->
    (forall r r', r ∈ rs ++ rest -> r' ∈ rs ++ rest -> r <> r' -> ~ reached g r r') ->
    exists b' T' P' D' s' e', rfor rest (fun r st => bl_dfs (S (length g)) g r r st) (b, T) = Ok (b', T') /\ fwalked (rs ++ rest) P' D' s' e' b' T'.
  Proof.
    induction rest as [|r rest IH]; intros rs P D s e b T F N Tr Ap.
    - exists b, T, P, D, s, e. rewrite app_nil_r. split; [reflexivity|exact F].
    - assert (r ∈ rs ++ r :: rest) as Hr by (apply elem_of_app; right; apply elem_of_list_here).
      destruct (forest_step rs P D s e b T r F (Tr r Hr)) as (b1 & T1 & P1 & D1 & s1 & e1 & E1 & F1).
      { intros x Hx. apply Ap; [apply elem_of_app; auto|exact Hr|]. intros ->. apply NoDup_app in N as (_ & N & _). exact (N r Hx ltac:(apply elem_of_list_here)). }
      replace (rs ++ r :: rest) with ((rs ++ [r]) ++ rest) in * by (rewrite <- app_assoc; reflexivity).
      destruct (IH (rs ++ [r]) P1 D1 s1 e1 b1 T1 F1 N Tr Ap) as (b2 & T2 & P2 & D2 & s2 & e2 & E2 & F2).
      exists b2, T2, P2, D2, s2, e2. split; [|exact F2]. cbn [rfor]. rewrite E1. exact E2.
  Qed.

  Lemma forest_ok r0 rest t0 l0 : NoDup (r0 :: rest) -> (forall r, r ∈ r0 :: rest -> tree_at g r) ->
    (forall r r', r ∈ r0 :: rest -> r' ∈ r0 :: rest -> r <> r' -> ~ reached g r r') ->
    (forall v, reached g r0 v -> v ∈ l0) -> length l0 <= t0 ->
    exists b T P D s e, forest g r0 rest t0 = Ok (b, T) /\ fwalked (r0 :: rest) P D s e b T.
  Proof.
    intros N Tr Ap L0 Ht0. destruct (tree_ctree g r0 (Tr r0 ltac:(apply elem_of_list_here))) as (par & dep & Ht).
    pose proof (levels_pos (length g)) as Hl. pose proof (levels_pow (length g) H0) as Hp.
    unfold forest. rewrite from_unfold by lia. set (b0 := BL _ _ _ _ _).
    destruct (dfs_walked g _ r0 par dep Ht lv Hl Hp 0 b0 0) as (b & t & E & K & S & l & Nl & Il & Et).
    - split; cbn; rewrite ?replicate_length; auto. intros v row Hv. apply lookup_replicate in Hv as [-> _]. apply replicate_length.
    - apply lookup_replicate. split; [reflexivity|apply (t_lt _ _ _ _ _ Ht); apply root_reached].
    - rewrite E. cbn [mbind res_bind fst].
      assert (t <= t0) as Hle.
      { subst t. cbn. etransitivity; [|exact Ht0]. apply submseteq_length. apply NoDup_submseteq; [exact Nl|]. intros v Hv. apply L0. apply Il. exact Hv. }
      destruct (forest_steps rest [r0] (fun _ => par) (fun _ => dep) (fun _ => 0) (fun _ => t) b t0) as (b' & T' & P' & D' & s' & e' & E' & F'); auto.
      + split.
        * exact (k_wf _ _ _ _ _ _ _ _ _ _ K).
        * intros r Hr. apply elem_of_list_singleton in Hr as ->. auto.
        * intros r r' Hr Hr' Hne. apply elem_of_list_singleton in Hr as ->. apply elem_of_list_singleton in Hr' as ->. congruence.
        * intros v Hv Ho. destruct (S v) as (_ & -> & _); [apply Ho; apply elem_of_list_singleton; reflexivity|]. apply lookup_replicate. auto.
      + exists b', T', P', D', s', e'. auto.
  Qed.
End forest.
