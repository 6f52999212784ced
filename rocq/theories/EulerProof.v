(** The visiting order of BinaryLifting::dfs. *)
From Verif Require Import Prelude ArraySpec TreeSpec TreeProof LiftModel LiftProof HldSpec EulerSpec.

Scheme preorder_mind := Minimality for preorder Sort Prop
  with preorders_mind := Minimality for preorders Sort Prop.
Combined Scheme preorder_both from preorder_mind, preorders_mind.

Lemma vset_inv {A} (v : list A) i x v' : vset v i x = Ok v' -> i < length v /\ v' = <[i:=x]> v.
Proof.
  intros H. destruct (decide (i < length v)) as [Hi|Hi]; [rewrite vset_ok in H by exact Hi|rewrite vset_panic in H by lia; discriminate].
  injection H as <-. auto.
Qed.

Section Dfs.
  Context (g : list (list nat)).
  (** Times b' after visiting the vertices l from time t, starting with the tables of b. *)
  Definition timed (b : bl) (t : nat) (b' : bl) (l : list (nat * nat)) : Prop :=
    (forall v, v ∉ l.*1 -> bl_tin b' !! v = bl_tin b !! v /\ bl_tout b' !! v = bl_tout b !! v) /\
    (NoDup l.*1 -> forall i v k, l !! i = Some (v, k) -> bl_tin b' !! v = Some (t + i) /\ bl_tout b' !! v = Some (t + i + k)).

  Lemma enter_inv u p b t b' t' : bl_enter u p (b, t) = Ok (b', t') ->
    u < length (bl_tin b) /\ t' = t + 1 /\ bl_tin b' = <[u:=t]> (bl_tin b) /\ bl_tout b' = bl_tout b.
  Proof.
    unfold bl_enter. intros H. apply rbind_ok_inv in H as (tin & H1 & H). apply vset_inv in H1 as [Hu ->].
    apply rbind_ok_inv in H as (pa & _ & H). apply rbind_ok_inv in H as (pa' & _ & H). injection H as <- <-. auto.
  Qed.

  Lemma dfs_timed fuel : forall u p b t b' t', bl_dfs fuel g u p (b, t) = Ok (b', t') ->
    exists l, preorder g u p l /\ t' = t + length l /\ timed b t b' l.
  Proof.
    induction fuel as [|fuel IH]; intros u p b t b' t' H; [discriminate|]. cbn [bl_dfs] in H.
    apply rbind_ok_inv in H as ([b0 t0] & H0 & H). apply enter_inv in H0 as (Hu & -> & Ti0 & To0).
    apply rbind_ok_inv in H as (es & Hes & H). apply vget_ok_iff in Hes.
    apply rbind_ok_inv in H as ([b1 t1] & H1 & H).
    apply rbind_ok_inv in H as (tout & H2 & H). apply vset_inv in H2 as [Hu1 ->]. injection H as <- <-.
    assert (forall es b0 t0 b1 t1, rfor es (bl_edge (bl_dfs fuel g) u p) (b0, t0) = Ok (b1, t1) ->
      exists l, preorders g u (filter (fun v => v <> p) es) l /\ t1 = t0 + length l /\ timed b0 t0 b1 l) as Hloop.
    { clear -IH. induction es as [|v es IHe]; intros b0 t0 b1 t1 H.
      - injection H as <- <-. exists []. split; [constructor|]. split; [cbn; lia|]. split; [auto|]. intros _ i v k Hi. discriminate.
      - cbn [rfor] in H. apply rbind_ok_inv in H as ([b2 t2] & H1 & H2). unfold bl_edge in H1. rewrite filter_cons.
        destruct (Nat.eqb_spec v p) as [->|Hne].
        + injection H1 as <- <-. destruct (decide (p <> p)); [contradiction|]. apply IHe. exact H2.
        + destruct (decide (v <> p)); [|contradiction].
          apply rbind_ok_inv in H1 as (du & _ & H1). apply rbind_ok_inv in H1 as (dep & _ & H1).
          apply IH in H1 as (l1 & P1 & -> & F1 & T1). cbn [bl_tin bl_tout] in F1, T1. apply IHe in H2 as (l2 & P2 & -> & F2 & T2).
          exists (l1 ++ l2). split; [constructor; assumption|]. split; [rewrite app_length; lia|]. split.
          * intros x Hx. rewrite fmap_app, elem_of_app in Hx. destruct (F1 x) as [A1 A2]; [tauto|]. destruct (F2 x) as [B1 B2]; [tauto|].
            split; congruence.
          * intros Hnd i x k Hi. rewrite fmap_app in Hnd. apply NoDup_app in Hnd as (N1 & N12 & N2).
            destruct (decide (i < length l1)) as [Hl|Hl].
            -- rewrite lookup_app_l in Hi by exact Hl. destruct (T1 N1 i x k Hi) as [A1 A2].
               destruct (F2 x) as [B1 B2].
               { apply N12. apply elem_of_list_fmap. exists (x, k). split; [reflexivity|]. eapply elem_of_list_lookup_2; eauto. }
               split; congruence.
            -- rewrite lookup_app_r in Hi by lia. destruct (T2 N2 _ x k Hi) as [A1 A2]. rewrite A1, A2. split; f_equal; lia. }
    apply Hloop in H1 as (l & P & -> & F & T). exists ((u, S (length l)) :: l). split; [econstructor; eassumption|]. split; [cbn [length]; lia|]. split.
    - intros v Hv. rewrite fmap_cons in Hv. apply not_elem_of_cons in Hv as [Hvu Hv]. cbn [fst] in Hvu. destruct (F v Hv) as [A1 A2].
      cbn [bl_tin bl_tout]. rewrite list_lookup_insert_ne by congruence. rewrite A1, A2, Ti0, To0, list_lookup_insert_ne by congruence. auto.
    - intros Hnd. rewrite fmap_cons in Hnd. apply NoDup_cons in Hnd as [Hn Hnd]. cbn [fst] in Hn. intros [|i] v k Hi.
      + injection Hi as <- <-. cbn [bl_tin bl_tout]. destruct (F u Hn) as [A1 _]. rewrite A1, Ti0, list_lookup_insert by exact Hu.
        rewrite list_lookup_insert by exact Hu1. split; f_equal; lia.
      + cbn in Hi. destruct (T Hnd i v k Hi) as [A1 A2]. cbn [bl_tin bl_tout]. rewrite A1.
        assert (v ∈ l.*1) as Hv by (apply elem_of_list_fmap; exists (v, k); split; [reflexivity|]; eapply elem_of_list_lookup_2; eauto).
        rewrite list_lookup_insert_ne by congruence. rewrite A2. split; f_equal; lia.
  Qed.
End Dfs.

Section Tree.
  Context (g : list (list nat)) (root : nat) (par dep : nat -> nat) (Ht : rtree g root par dep).
  Notation n := (length g).
  Notation anc := (anc par).
  Notation child := (child g root par).

  (** In l every vertex is followed by its descendants, as many as its number says. *)
  Definition blocks (l : list (nat * nat)) : Prop :=
    forall i v k, l !! i = Some (v, k) -> i + k <= length l /\ forall j w, l.*1 !! j = Some w -> (anc v w <-> i <= j < i + k).

  Lemma in_fst (l : list (nat * nat)) i v k : l !! i = Some (v, k) -> l.*1 !! i = Some v /\ v ∈ l.*1.
  Proof.
    intros H. assert (l.*1 !! i = Some v) as E by (rewrite list_lookup_fmap, H; reflexivity). split; [exact E|]. eapply elem_of_list_lookup_2; eauto.
  Qed.

  Lemma pre_tree :
    (forall u p l, preorder g u p l -> u < n -> p = par u ->
       NoDup l.*1 /\ (forall v, v ∈ l.*1 <-> v < n /\ anc u v) /\ blocks l) /\
    (forall u vs l, preorders g u vs l -> u < n -> NoDup vs -> (forall v, v ∈ vs -> child u v) ->
       NoDup l.*1 /\ (forall v, v ∈ l.*1 <-> v < n /\ exists c, c ∈ vs /\ anc c v) /\ blocks l).
  Proof.
    apply (preorder_both g
      (fun u p l => u < n -> p = par u -> NoDup l.*1 /\ (forall v, v ∈ l.*1 <-> v < n /\ anc u v) /\ blocks l)
      (fun u vs l => u < n -> NoDup vs -> (forall v, v ∈ vs -> child u v) ->
         NoDup l.*1 /\ (forall v, v ∈ l.*1 <-> v < n /\ exists c, c ∈ vs /\ anc c v) /\ blocks l)).
    - intros u p es l Hes _ IH Hu ->.
      assert (forall v, v ∈ filter (fun v => v <> par u) es <-> child u v) as Hch.
      { intros v. rewrite elem_of_list_filter, <- (adj_children _ _ _ _ Ht u es v Hu Hes). tauto. }
      destruct (IH Hu) as (N & I & B); [apply NoDup_filter, (t_nodup _ _ _ _ Ht u es Hes)|intros v; apply Hch|].
      assert (forall v, v ∈ l.*1 -> ~ anc v u) as Hnot.
      { intros v Hv A. apply I in Hv as (Hv & c & Hc & Ac). apply Hch in Hc. apply (child_not_anc _ _ _ _ Ht u c Hc). eapply anc_trans; eauto. }
      assert (forall v, v ∈ u :: l.*1 <-> v < n /\ anc u v) as I'.
      { intros v. rewrite elem_of_cons, I. split.
        - intros [->|(Hv & c & Hc & A)]; [split; [exact Hu|apply anc_refl]|]. split; [exact Hv|]. apply Hch in Hc.
          eapply anc_trans; [apply (child_anc g root par); exact Hc|exact A].
        - intros [Hv A]. apply (anc_split _ _ _ _ Ht u v Hv) in A as [->|(c & Hc & A)]; [left; reflexivity|right]. split; [exact Hv|]. exists c. split; [apply Hch; exact Hc|exact A]. }
      rewrite fmap_cons. cbn [fst]. split; [|split; [exact I'|]].
      + apply NoDup_cons. split; [|exact N]. intros Hin. exact (Hnot u Hin (anc_refl par u)).
      + intros [|i] v k Hi.
        * injection Hi as <- <-. split; [cbn [length]; lia|]. intros j w Hj. rewrite fmap_cons in Hj. cbn [fst] in Hj.
          pose proof (lookup_lt_Some _ _ _ Hj) as Hl. cbn [length] in Hl. rewrite fmap_length in Hl. split; [lia|]. intros _.
          apply elem_of_list_lookup_2, I' in Hj. tauto.
        * cbn in Hi. destruct (B i v k Hi) as [B1 B2]. split; [cbn [length]; lia|]. intros j w Hj. rewrite fmap_cons in Hj. cbn [fst] in Hj. destruct j as [|j].
          -- injection Hj as <-. split; [|lia]. intros A. exfalso. apply (Hnot v); [|exact A]. apply (in_fst l i v k Hi).
          -- cbn in Hj. rewrite (B2 j w Hj). lia.
    - intros u _ _ _. split; [constructor|]. split.
      + intros v. cbn. rewrite elem_of_nil. split; [tauto|]. intros (_ & c & Hc & _). inversion Hc.
      + intros i v k Hi. discriminate.
    - intros u v vs l1 l2 _ IH1 _ IH2 Hu Hnd Hch. apply NoDup_cons in Hnd as [Hv Hnd].
      pose proof (Hch v ltac:(left)) as Hcv. pose proof Hcv as (Hvn & _ & Hvp).
      destruct (IH1 Hvn ltac:(symmetry; exact Hvp)) as (N1 & I1 & B1).
      destruct (IH2 Hu Hnd) as (N2 & I2 & B2); [intros x Hx; apply Hch; right; exact Hx|].
      assert (forall x c, x < n -> anc v x -> c ∈ vs -> anc c x -> False) as Hdis.
      { intros x c Hx A Hc A'. apply Hv. rewrite (child_disjoint _ _ _ _ Ht u v c x Hx Hcv (Hch c ltac:(right; exact Hc)) A A'). exact Hc. }
      split; [|split].
      + rewrite fmap_app. apply NoDup_app. split; [exact N1|]. split; [|exact N2]. intros x Hx1 Hx2. apply I1 in Hx1 as [Hx A]. apply I2 in Hx2 as (_ & c & Hc & A').
        exact (Hdis x c Hx A Hc A').
      + intros x. rewrite fmap_app, elem_of_app, I1, I2. split.
        * intros [[Hx A]|(Hx & c & Hc & A)]; (split; [exact Hx|]); [exists v; split; [left|exact A]|exists c; split; [right; exact Hc|exact A]].
        * intros (Hx & c & Hc & A). apply elem_of_cons in Hc as [->|Hc]; [left; auto|right; eauto].
      + intros i x k Hi. rewrite app_length. destruct (decide (i < length l1)) as [Hl|Hl].
        * rewrite lookup_app_l in Hi by exact Hl. destruct (B1 i x k Hi) as [C1 C2]. split; [lia|]. intros j w Hj. rewrite fmap_app in Hj.
          destruct (decide (j < length l1)) as [Hj1|Hj1].
          -- rewrite lookup_app_l in Hj by (rewrite fmap_length; exact Hj1). apply C2. exact Hj.
          -- rewrite lookup_app_r in Hj by (rewrite fmap_length; lia). split; [|lia]. intros A. exfalso.
             apply in_fst in Hi as [_ Hx]. apply I1 in Hx as [_ Ax]. apply elem_of_list_lookup_2, I2 in Hj as (Hw & c & Hc & Ac).
             apply (Hdis w c Hw); [eapply anc_trans; eauto|exact Hc|exact Ac].
        * rewrite lookup_app_r in Hi by lia. destruct (B2 _ x k Hi) as [C1 C2]. split; [lia|]. intros j w Hj. rewrite fmap_app in Hj.
          destruct (decide (j < length l1)) as [Hj1|Hj1].
          -- rewrite lookup_app_l in Hj by (rewrite fmap_length; exact Hj1). split; [|lia]. intros A. exfalso.
             apply in_fst in Hi as [_ Hx]. apply I2 in Hx as (_ & c & Hc & Ac). apply elem_of_list_lookup_2, I1 in Hj as [Hw Aw].
             apply (Hdis w c Hw Aw Hc). eapply anc_trans; eauto.
          -- rewrite lookup_app_r in Hj by (rewrite fmap_length; lia). rewrite fmap_length in Hj. rewrite (C2 _ w Hj). lia.
  Qed.
End Tree.

Lemma sublist_In_ord {A} (l k : list A) x : sublist l k -> x ∈ l -> x ∈ k.
Proof. induction 1 as [|y l k H IH|y l k H IH]; intros Hx; [exact Hx| |]; rewrite ?elem_of_cons in *; tauto. Qed.
Lemma sublist_NoDup_ord {A} (l k : list A) : sublist l k -> NoDup k -> NoDup l.
Proof.
  induction 1 as [|x l k H IH|x l k H IH]; intros N; [constructor| |].
  - apply NoDup_cons in N as [N1 N2]. apply NoDup_cons. split; [|auto]. intros Hx. apply N1. eapply sublist_In_ord; eauto.
  - apply NoDup_cons in N as [_ N2]. auto.
Qed.

(** The search visits in one order only. *)
Lemma preorder_unique g :
  (forall u p l, preorder g u p l -> forall l', preorder g u p l' -> l' = l) /\
  (forall u vs l, preorders g u vs l -> forall l', preorders g u vs l' -> l' = l).
Proof.
  apply (preorder_both g (fun u p l => forall l', preorder g u p l' -> l' = l) (fun u vs l => forall l', preorders g u vs l' -> l' = l)).
  - intros u p es l Hes _ IH l' H. inversion H as [u0 p0 es' l0 Hes' H0 E1 E2 E3]; subst. assert (es' = es) as -> by congruence. rewrite (IH _ H0). reflexivity.
  - intros u l' H. inversion H; reflexivity.
  - intros u v vs l1 l2 _ IH1 _ IH2 l' H. inversion H as [|u0 v0 vs0 k1 k2 K1 K2 E1 E2 E3]; subst. rewrite (IH1 _ K1), (IH2 _ K2). reflexivity.
Qed.

(** tin and tout are the times of the visiting order l. *)
Record tour (g : list (list nat)) (root : nat) (b : bl) (l : list (nat * nat)) : Prop := {
  to_pre : preorder g root root l;
  to_perm : l.*1 ≡ₚ seq 0 (length g);
  to_in : length (bl_tin b) = length g;
  to_out : length (bl_tout b) = length g;
  to_times : forall i v k, l !! i = Some (v, k) -> bl_tin b !! v = Some i /\ bl_tout b !! v = Some (i + k);
  to_block : forall i v k, l !! i = Some (v, k) -> i + k <= length g /\ forall j w, l.*1 !! j = Some w -> (ancestor g root v w <-> i <= j < i + k) }.

Lemma from_tour g root : is_tree g -> root < length g -> (Z.of_nat (length g) < 2 ^ 64)%Z ->
  exists b l, bl_from g root = Ok b /\ tour g root b l.
Proof.
  intros T Hr Hn. destruct (tree_rtree g T root Hr) as (par & dep & R). destruct (from_ok g root par dep R Hn) as (b & lv & E & H1 & H2 & B).
  exists b. pose proof E as E'. unfold bl_from in E'. apply rbind_ok_inv in E' as (lg & _ & E'). apply rbind_ok_inv in E' as ([b' t'] & E' & Eb).
  cbn in Eb. injection Eb as ->. apply dfs_timed in E' as (l & P & _ & _ & Ti). exists l. split; [exact E|].
  destruct (proj1 (pre_tree g root par dep R) root root l P Hr) as (N & I & Bl); [symmetry; apply (t_root_par _ _ _ _ R)|].
  assert (l.*1 ≡ₚ seq 0 (length g)) as Hp.
  { apply NoDup_Permutation; [exact N|apply NoDup_seq|]. intros v. rewrite I, elem_of_seq. split; [lia|]. intros [_ Hv]. split; [lia|]. apply (anc_root _ _ _ _ R). lia. }
  assert (length l = length g) as Hl by (apply Permutation_length in Hp; rewrite fmap_length, seq_length in Hp; exact Hp).
  split; try exact P; try exact Hp; try (apply (b_wf _ _ _ _ _ B)).
  - intros i v k Hi. exact (Ti N i v k Hi).
  - intros i v k Hi. destruct (Bl i v k Hi) as [C1 C2]. split; [lia|]. intros j w Hj. rewrite <- (C2 j w Hj).
    apply in_fst in Hi as [_ Hv]. apply I in Hv as [Hv _]. apply elem_of_list_lookup_2, I in Hj as [Hw _]. eapply ancestor_iff; eauto.
Qed.

Section Tour.
  Context (g : list (list nat)) (root : nat) (b : bl) (l : list (nat * nat)) (T : tour g root b l).
  Notation n := (length g).
  Notation ord := (l.*1).

  Lemma tour_length : length l = n.
  Proof. pose proof (Permutation_length (to_perm _ _ _ _ T)) as H. rewrite fmap_length, seq_length in H. exact H. Qed.
  Lemma tour_nodup : NoDup ord.
  Proof. rewrite (to_perm _ _ _ _ T). apply NoDup_seq. Qed.
  Lemma tour_at v : v < n -> exists i k, l !! i = Some (v, k) /\ ord !! i = Some v /\ i < n.
  Proof.
    intros Hv. assert (v ∈ ord) as H by (rewrite (to_perm _ _ _ _ T), elem_of_seq; lia).
    apply elem_of_list_fmap in H as ([v' k] & -> & H). apply elem_of_list_lookup in H as [i H]. exists i, k. split; [exact H|].
    split; [rewrite list_lookup_fmap, H; reflexivity|]. apply lookup_lt_Some in H. rewrite tour_length in H. exact H.
  Qed.
  Lemma tour_visiting : visiting_order g root ord.
  Proof.
    split; [apply (to_perm _ _ _ _ T)|]. intros k u Hk. rewrite list_lookup_fmap in Hk. destruct (l !! k) as [[u' m]|] eqn:E; [|discriminate].
    injection Hk as ->. exists m. apply (to_block _ _ _ _ T k u m E).
  Qed.

  (** The part of the order between tin and tout. *)
  Definition sub_at (u : nat) : list nat := slice ord (default 0 (bl_tin b !! u)) (default 0 (bl_tout b !! u)).

  Lemma sub_at_elem u : u < n -> forall x, x ∈ sub_at u <-> x < n /\ ancestor g root u x.
  Proof.
    intros Hu x. destruct (tour_at u Hu) as (i & k & Hi & _ & _). unfold sub_at. destruct (to_times _ _ _ _ T i u k Hi) as [-> ->]. cbn [default]. change (id ?x) with x.
    destruct (to_block _ _ _ _ T i u k Hi) as [Hk Hb]. split.
    - intros Hx. apply elem_of_list_lookup in Hx as [j Hj]. pose proof (lookup_lt_Some _ _ _ Hj) as Hl.
      rewrite slice_length in Hl by (rewrite fmap_length, tour_length; exact Hk). rewrite slice_lookup in Hj by lia. split.
      + apply elem_of_list_lookup_2 in Hj. rewrite (to_perm _ _ _ _ T), elem_of_seq in Hj. lia.
      + apply (Hb _ _ Hj). lia.
    - intros [Hx A]. destruct (tour_at x Hx) as (j & m & _ & Hj & _). apply (Hb _ _ Hj) in A. apply elem_of_list_lookup. exists (j - i).
      rewrite slice_lookup by lia. replace (i + (j - i)) with j by lia. exact Hj.
  Qed.

  Lemma slice_sublist {A} (a : list A) x y : sublist (slice a x y) a.
  Proof. unfold slice. etrans; [apply sublist_take|apply sublist_drop]. Qed.
End Tour.
