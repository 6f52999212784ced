(** Binary lifting: proofs. *)
From Verif Require Import Prelude UtilModel UtilProof TreeSpec TreeProof LiftModel.

Lemma pa_set_ok pa u i x row : pa !! u = Some row -> i < length row -> pa_set pa u i x = Ok (<[u:=<[i:=x]> row]> pa).
Proof.
  intros H Hi. unfold pa_set. rewrite (vget_ok _ _ _ H). cbn. rewrite (vset_ok row) by exact Hi. cbn. apply vset_ok. eapply lookup_lt_Some; eauto.
Qed.

Lemma pa_get_ok pa u i row x : pa !! u = Some row -> row !! i = Some x -> pa_get pa u i = Ok x.
Proof. intros H Hi. unfold pa_get. rewrite (vget_ok _ _ _ H). cbn. apply vget_ok. exact Hi. Qed.

Section lift.
  Context (g : list (list nat)) (root : nat) (par dep : nat -> nat) (Ht : rtree g root par dep).
  Context (level : nat) (Hlev : 1 <= level) (Hpow : length g < 2 ^ level).
  Notation n := (length g).
  Notation up := (up par).
  Notation anc := (anc par).
  Notation child := (child g root par).

  Definition good_row (row : list nat) (v : nat) : Prop := forall i, i < level -> row !! i = Some (up (2 ^ i) v).
  Definition good_pa (pa : list (list nat)) (v : nat) : Prop := exists row, pa !! v = Some row /\ good_row row v.
  Record bwf (b : bl) : Prop := {
    w_level : bl_level b = level;
    w_pa : length (bl_pa b) = n;
    w_row : forall v row, bl_pa b !! v = Some row -> length row = level;
    w_dep : length (bl_dep b) = n;
    w_tin : length (bl_tin b) = n;
    w_tout : length (bl_tout b) = n }.

  Definition same_at (b b' : bl) (v : nat) : Prop :=
    bl_pa b' !! v = bl_pa b !! v /\ bl_dep b' !! v = bl_dep b !! v /\ bl_tin b' !! v = bl_tin b !! v /\ bl_tout b' !! v = bl_tout b !! v.
  Lemma same_at_trans b1 b2 b3 v : same_at b1 b2 v -> same_at b2 b3 v -> same_at b1 b3 v.
  Proof. intros (A1 & A2 & A3 & A4) (B1 & B2 & B3 & B4). repeat split; congruence. Qed.

  (** v's entries are final; its times lie in [t, t']. *)
  Definition fin (b : bl) (t t' v : nat) : Prop :=
    good_pa (bl_pa b) v /\ bl_dep b !! v = Some (dep v) /\
    exists a o, bl_tin b !! v = Some a /\ bl_tout b !! v = Some o /\ t <= a /\ a < o /\ o <= t'.
  Definition nest (b : bl) (v w : nat) : Prop :=
    forall tv ov tw, bl_tin b !! v = Some tv -> bl_tout b !! v = Some ov -> bl_tin b !! w = Some tw -> (tv <= tw < ov <-> anc v w).
  Lemma fin_same b b' t t' v : same_at b b' v -> fin b t t' v -> fin b' t t' v.
  Proof. intros (A1 & A2 & A3 & A4) ((row & R1 & R2) & D & a & o & H). split; [exists row; rewrite A1; auto|]. rewrite A2, A3, A4. eauto. Qed.
  Lemma fin_mono b s s' t t' v : t <= s -> s' <= t' -> fin b s s' v -> fin b t t' v.
  Proof. intros H1 H2 (R & D & a & o & A1 & A2 & A3 & A4 & A5). split; [exact R|]. split; [exact D|]. exists a, o. repeat split; auto; lia. Qed.
  Lemma nest_same b b' v w : same_at b b' v -> same_at b b' w -> nest b v w -> nest b' v w.
  Proof. intros (A1 & A2 & A3 & A4) (B1 & B2 & B3 & B4) H tv ov tw. rewrite A3, A4, B3. apply H. Qed.

  Lemma good_pa_get pa v i : good_pa pa v -> i < level -> pa_get pa v i = Ok (up (2 ^ i) v).
  Proof. intros (row & R1 & R2) Hi. unfold pa_get. rewrite (vget_ok _ _ _ R1). cbn. rewrite (vget_ok _ _ _ (R2 i Hi)). reflexivity. Qed.

  Record dpost (u : nat) (b : bl) (t : nat) (b' : bl) (t' : nat) : Prop := {
    p_wf : bwf b';
    p_frame : forall v, ~ anc u v -> same_at b b' v;
    p_fin : forall v, v < n -> anc u v -> fin b' t t' v;
    p_nest : forall v w, v < n -> w < n -> anc u v -> anc u w -> nest b' v w }.

  (** Filling the row of jumps of u. *)
  Lemma pa_fill b u t : bwf b -> u < n -> (forall k, 0 < k -> up k u <> u -> good_pa (bl_pa b) (up k u)) ->
    exists b', bl_enter u (par u) (b, t) = Ok (b', t + 1) /\ bwf b' /\ good_pa (bl_pa b') u /\ bl_tin b' !! u = Some t /\ bl_dep b' = bl_dep b /\
      forall v, v <> u -> same_at b b' v.
  Proof.
    intros W Hu Hanc. unfold bl_enter. pose proof W as [W1 W2 W3 W4 W5 W6].
    rewrite vset_ok by lia. cbn [mbind res_bind].
    destruct (lookup_lt_is_Some_2 (bl_pa b) u ltac:(lia)) as [row Hrow]. pose proof (W3 u row Hrow) as Hrl.
    rewrite (pa_set_ok _ _ _ _ _ Hrow) by lia. cbn [mbind res_bind].
    rewrite W1. unfold range.
    destruct (rfor_range_inv (fun i pa => length pa = n /\ (forall v, v <> u -> pa !! v = bl_pa b !! v) /\
        exists r, pa !! u = Some r /\ length r = level /\ forall j, j < i -> r !! j = Some (up (2 ^ j) u)) 1 level
      (fun i pa => w ← pa_get pa u (i - 1); x ← pa_get pa w (i - 1); pa_set pa u i x) (<[u:=<[0:=par u]> row]> (bl_pa b)) Hlev) as (pa & E & P1 & P2 & r & R1 & R2 & R3).
    - split; [rewrite insert_length; exact W2|]. split; [intros v Hv; apply list_lookup_insert_ne; auto|].
      exists (<[0:=par u]> row). split; [apply list_lookup_insert; lia|]. split; [rewrite insert_length; exact Hrl|].
      intros j Hj. assert (j = 0) as -> by lia. rewrite list_lookup_insert by lia. reflexivity.
    - intros i pa Hi (P1 & P2 & r & R1 & R2 & R3). rewrite (pa_get_ok pa u (i - 1) r (up (2 ^ (i - 1)) u) R1) by (apply R3; lia). cbn [mbind res_bind].
      assert (pa_get pa (up (2 ^ (i - 1)) u) (i - 1) = Ok (up (2 ^ i) u)) as ->.
      { assert (up (2 ^ i) u = up (2 ^ (i - 1)) (up (2 ^ (i - 1)) u)) as E.
        { rewrite <- up_add. f_equal. replace (2 ^ i) with (2 ^ S (i - 1)) by (f_equal; lia). rewrite Nat.pow_succ_r'. lia. }
        destruct (decide (up (2 ^ (i - 1)) u = u)) as [Eu|Hne].
        - rewrite E, Eu. unfold pa_get. rewrite (vget_ok _ _ _ R1). cbn [mbind res_bind]. rewrite Eu. erewrite vget_ok; [reflexivity|]. rewrite R3 by lia. f_equal. exact Eu.
        - rewrite E. apply good_pa_get; [|lia]. destruct (Hanc (2 ^ (i - 1))) as (r' & R1' & R2'); [pose proof (Nat.pow_nonzero 2 (i-1)); lia|exact Hne|].
          exists r'. split; [rewrite P2 by exact Hne; exact R1'|exact R2']. }
      cbn [mbind res_bind]. rewrite (pa_set_ok _ _ _ _ _ R1) by lia.
      eexists. split; [reflexivity|]. split; [rewrite insert_length; exact P1|]. split; [intros v Hv; rewrite list_lookup_insert_ne by auto; auto|].
      eexists. split; [apply list_lookup_insert; lia|]. split; [rewrite insert_length; exact R2|]. intros j Hj.
      destruct (decide (j = i)) as [->|Hj']; [apply list_lookup_insert; lia|]. rewrite list_lookup_insert_ne by auto. apply R3. lia.
    - rewrite E. cbn [mbind res_bind]. eexists. split; [reflexivity|]. split; [|split; [|split; [|split]]]; cbn.
      + split; cbn; auto.
        * intros v r' Hr'. destruct (decide (v = u)) as [->|Hne]; [congruence|]. rewrite P2 in Hr' by exact Hne. eauto.
        * rewrite insert_length. exact W5.
      + exists r. split; [exact R1|exact R3].
      + apply list_lookup_insert. lia.
      + reflexivity.
      + intros v Hv. repeat split; cbn; [apply P2; exact Hv|]. apply list_lookup_insert_ne. auto.
  Qed.

  Lemma dfs_ok : forall fuel u b t, n < fuel + dep u -> u < n -> bwf b -> bl_dep b !! u = Some (dep u) ->
    (forall k, 0 < k -> up k u <> u -> good_pa (bl_pa b) (up k u)) ->
    exists b' t', bl_dfs fuel g u (par u) (b, t) = Ok (b', t') /\ t < t' /\ dpost u b t b' t' /\ bl_tin b' !! u = Some t /\ bl_tout b' !! u = Some t'.
  Proof.
    induction fuel as [|fuel IH]; intros u b t Hf Hu W Hd Hanc; [pose proof (dep_lt _ _ _ _ Ht u Hu); lia|].
    cbn [bl_dfs]. destruct (pa_fill b u t W Hu Hanc) as (b0 & E0 & W0 & G0 & T0 & D0 & S0). rewrite E0. cbn [mbind res_bind].
    destruct (lookup_lt_is_Some_2 g u Hu) as [es Hes]. rewrite (vget_ok _ _ _ Hes). cbn [mbind res_bind].
    pose proof (t_nodup _ _ _ _ Ht u es Hes) as Hnd.
    pose (I := fun (done : list nat) (st : bl * nat) =>
      bwf st.1 /\ t + 1 <= st.2 /\ (forall v, ~ anc u v -> same_at b st.1 v) /\
      (good_pa (bl_pa st.1) u /\ bl_dep st.1 !! u = Some (dep u) /\ bl_tin st.1 !! u = Some t) /\
      (forall c v, c ∈ done -> child u c -> v < n -> anc c v -> fin st.1 (t + 1) st.2 v) /\
      (forall c c' v w, c ∈ done -> c' ∈ done -> child u c -> child u c' -> v < n -> w < n -> anc c v -> anc c' w -> nest st.1 v w)).
    destruct (rfor_inv I es (bl_edge (bl_dfs fuel g) u (par u)) (b0, t + 1)) as ([b1 t1] & E1 & W1 & L1 & F1 & (G1 & D1 & T1) & Fin & Nest).
    - unfold I. cbn [fst snd]. split; [exact W0|]. split; [lia|]. split; [|split; [|split]].
      + intros v Hv. apply S0. intros ->. apply Hv. apply anc_refl.
      + rewrite D0. auto.
      + intros c v Hc. inversion Hc.
      + intros c c' v w Hc. inversion Hc.
    - intros done c rest [b1 t1] Ees (W1 & L1 & F1 & (G1 & D1 & T1) & Fin & Nest). cbn [fst snd] in *. unfold bl_edge.
      assert (c ∈ es) as Hc by (rewrite Ees; apply elem_of_app; right; apply elem_of_list_here).
      destruct (c =? par u) eqn:Ecp.
      { apply Nat.eqb_eq in Ecp. eexists. split; [reflexivity|]. unfold I; cbn [fst snd].
        assert (~ child u c) as Hnc by (intros Hch; apply (adj_children _ _ _ _ Ht u es c Hu Hes) in Hch; tauto).
        split; [exact W1|]. split; [exact L1|]. split; [exact F1|]. split; [auto|]. split.
        - intros x v Hx Hch. apply elem_of_app in Hx as [Hx|Hx]; [eauto|]. apply elem_of_list_singleton in Hx as ->. contradiction.
        - intros x x' v w Hx Hx' Hch Hch'. apply elem_of_app in Hx as [Hx|Hx]; [|apply elem_of_list_singleton in Hx as ->; contradiction].
          apply elem_of_app in Hx' as [Hx'|Hx']; [|apply elem_of_list_singleton in Hx' as ->; contradiction]. eauto. }
      apply Nat.eqb_neq in Ecp. assert (child u c) as Hch by (apply (adj_children _ _ _ _ Ht u es c Hu Hes); auto).
      pose proof Hch as (Hcn & Hcr & Hcp). pose proof (child_dep _ _ _ _ Ht u c Hch) as Hcd.
      rewrite (vget_ok _ _ _ D1). cbn [mbind res_bind]. rewrite vset_ok by (rewrite (w_dep _ W1); exact Hcn). cbn [mbind res_bind].
      set (b2 := BL (bl_level b1) (bl_pa b1) (<[c:=dep u + 1]> (bl_dep b1)) (bl_tin b1) (bl_tout b1)).
      assert (u <> c) as Huc by (intros <-; lia).
      assert (forall v, v <> c -> same_at b1 b2 v) as S2.
      { intros v Hv. repeat split; cbn. apply list_lookup_insert_ne. auto. }
      assert (bwf b2) as W2.
      { destruct W1. split; cbn; auto. rewrite insert_length. assumption. }
      destruct (IH c b2 t1) as (b3 & t3 & E3 & L3 & Post & T3 & O3).
      + lia.
      + exact Hcn.
      + exact W2.
      + cbn. rewrite list_lookup_insert by (rewrite (w_dep _ W1); exact Hcn). f_equal. lia.
      + intros k Hk Hne. cbn. replace k with (S (k - 1)) in * by lia. rewrite up_S_r, Hcp in *.
        destruct (decide (up (k - 1) u = u)) as [->|Hne']; [exact G1|].
        assert (0 < k - 1) as Hk1 by (destruct (k - 1); [cbn in Hne'; congruence|lia]).
        assert (~ anc u (up (k - 1) u)) as Hna.
        { intros A. apply Hne'. symmetry. apply (anc_antisym _ _ _ _ Ht); auto; [apply (up_lt _ _ _ _ Ht); exact Hu|apply anc_up]. }
        destruct (F1 _ Hna) as (A1 & _). destruct (Hanc (k - 1) Hk1 Hne') as (r & R1 & R2). exists r. rewrite A1. auto.
      + rewrite Hcp in E3. exists (b3, t3). split; [exact E3|]. destruct Post as [PW PF PFin PN].
        assert (forall v, ~ anc c v -> same_at b1 b3 v) as S3.
        { intros v Hv. eapply same_at_trans; [apply S2|apply PF; exact Hv]. intros ->. apply Hv. apply anc_refl. }
        assert (~ c ∈ done) as Hnin.
        { rewrite Ees in Hnd. apply NoDup_app in Hnd as (_ & Hnd & _). intros Hin. exact (Hnd c Hin ltac:(apply elem_of_list_here)). }
        assert (forall x v, x ∈ done -> child u x -> v < n -> anc x v -> ~ anc c v) as Hdis.
        { intros x v Hx Hxc Hv Hxv Hcv. apply Hnin. rewrite (child_disjoint _ _ _ _ Ht u c x v); auto. }
        pose proof (child_not_anc _ _ _ _ Ht u c Hch) as Hnu.
        unfold I; cbn [fst snd]. split; [exact PW|]. split; [lia|]. split; [|split; [|split]].
        * intros v Hv. eapply same_at_trans; [apply F1; exact Hv|]. apply S3. intros A. apply Hv.
          eapply anc_trans; [apply (child_anc g root par); exact Hch|exact A].
        * destruct (S3 u Hnu) as (A1 & A2 & A3 & A4). split; [|rewrite A2, A3; auto].
          destruct G1 as (r & R1 & R2). exists r. rewrite A1. auto.
        * intros x v Hx Hxc Hv Hxv. apply elem_of_app in Hx as [Hx|Hx].
          -- apply (fin_same b1); [apply S3; eauto|]. eapply fin_mono; [| |eapply Fin; eauto]; lia.
          -- apply elem_of_list_singleton in Hx as ->. eapply fin_mono; [| |apply PFin; auto]; lia.
        * intros x x' v w Hx Hx' Hxc Hxc' Hv Hw Hxv Hxw. apply elem_of_app in Hx as [Hx|Hx]; apply elem_of_app in Hx' as [Hx'|Hx'].
          -- apply (nest_same b1); [apply S3; eauto|apply S3; eauto|eauto].
          -- (* v old, w new *)
             apply elem_of_list_singleton in Hx' as ->. intros tv ov tw E1 E2 E3'.
             destruct (Fin x v Hx Hxc Hv Hxv) as (_ & _ & a & o & A1 & A2 & A3 & A4 & A5).
             destruct (S3 v (Hdis x v Hx Hxc Hv Hxv)) as (_ & _ & B1 & B2). destruct (PFin w Hw Hxw) as (_ & _ & a' & o' & C1 & C2 & C3 & C4 & C5).
             split; [intros ?; exfalso; replace ov with o in * by congruence; replace tw with a' in * by congruence; lia|].
             intros A. exfalso. apply (Hdis x w Hx Hxc Hw); [|exact Hxw]. eapply anc_trans; eauto.
          -- (* v new, w old *)
             apply elem_of_list_singleton in Hx as ->. intros tv ov tw E1 E2 E3'.
             destruct (Fin x' w Hx' Hxc' Hw Hxw) as (_ & _ & a & o & A1 & A2 & A3 & A4 & A5).
             destruct (S3 w (Hdis x' w Hx' Hxc' Hw Hxw)) as (_ & _ & B1 & B2). destruct (PFin v Hv Hxv) as (_ & _ & a' & o' & C1 & C2 & C3 & C4 & C5).
             split; [intros ?; exfalso; replace tw with a in * by congruence; replace tv with a' in * by congruence; lia|].
             intros A. exfalso. apply (Hdis x' w Hx' Hxc' Hw Hxw). eapply anc_trans; eauto.
          -- apply elem_of_list_singleton in Hx as ->. apply elem_of_list_singleton in Hx' as ->. apply PN; auto.
    - rewrite E1. cbn [mbind res_bind]. cbn [fst snd] in *. rewrite vset_ok by (rewrite (w_tout _ W1); exact Hu). cbn [mbind res_bind].
      set (b2 := BL (bl_level b1) (bl_pa b1) (bl_dep b1) (bl_tin b1) (<[u:=t1]> (bl_tout b1))).
      exists b2, t1. split; [reflexivity|]. split; [lia|].
      assert (forall v, v <> u -> same_at b1 b2 v) as S2.
      { intros v Hv. repeat split; cbn. apply list_lookup_insert_ne. auto. }
      assert (bl_tout b2 !! u = Some t1) as O2 by (apply list_lookup_insert; rewrite (w_tout _ W1); exact Hu).
      assert (forall v, v < n -> anc u v -> v = u \/ v <> u /\ exists c, c ∈ es /\ child u c /\ anc c v) as Hsp.
      { intros v Hv A. apply (anc_split _ _ _ _ Ht) in A as [->|(c & Hc & A)]; [left; reflexivity|right|exact Hv]. split.
        - intros ->. exact (child_not_anc _ _ _ _ Ht u c Hc A).
        - exists c. split; [|auto]. apply (adj_children _ _ _ _ Ht u es c Hu Hes). exact Hc. }
      split; [|split; [exact T1|exact O2]]. split.
      + destruct W1. split; cbn; auto. rewrite insert_length. assumption.
      + intros v Hv. eapply same_at_trans; [apply F1; exact Hv|]. apply S2. intros ->. apply Hv. apply anc_refl.
      + intros v Hv A. destruct (Hsp v Hv A) as [->|(Hne & c & H1 & H2 & H3)].
        * split; [exact G1|]. split; [exact D1|]. exists t, t1. auto with lia.
        * apply (fin_same b1); [apply S2; exact Hne|]. eapply fin_mono; [| |eapply Fin; eauto]; lia.
      + intros v w Hv Hw Av Aw. destruct (Hsp v Hv Av) as [->|(Hne & c & H1 & H2 & H3)]; destruct (Hsp w Hw Aw) as [->|(Hne' & c' & H1' & H2' & H3')].
        * intros tv ov tw E2 E3 E4. rewrite O2 in E3. cbn in E2, E4. split; [auto|]. intros _. assert (tv = t /\ tw = t /\ ov = t1) as (-> & -> & ->) by (repeat split; congruence). lia.
        * intros tv ov tw E2 E3 E4. rewrite O2 in E3. cbn in E2, E4. split; [auto|]. intros _.
          destruct (Fin c' w H1' H2' Hw H3') as (_ & _ & a & o & A1 & A2 & A3 & A4 & A5).
          assert (tv = t /\ tw = a /\ ov = t1) as (-> & -> & ->) by (repeat split; congruence). lia.
        * intros tv ov tw E2 E3 E4. cbn in E2, E4.
          destruct (Fin c v H1 H2 Hv H3) as (_ & _ & a & o & A1 & A2 & A3 & A4 & A5).
          assert (tv = a /\ tw = t) as (-> & ->) by (split; congruence). split; [lia|]. intros A. exfalso.
          apply (child_not_anc _ _ _ _ Ht u c H2). eapply anc_trans; eauto.
        * apply (nest_same b1); [apply S2; exact Hne|apply S2; exact Hne'|]. exact (Nest c c' v w H1 H1' H2 H2' Hv Hw H3 H3').
  Qed.

  (** *** The finished structure *)
  Record built (b : bl) : Prop := {
    b_wf : bwf b;
    b_pa : forall v, v < n -> good_pa (bl_pa b) v;
    b_dep : forall v, v < n -> bl_dep b !! v = Some (dep v);
    b_nest : forall v w, v < n -> w < n -> nest b v w }.

  Lemma dfs_built : exists st, bl_dfs (S n) g root root
      (BL level (replicate n (replicate level 0)) (replicate n 0) (replicate n 0) (replicate n 0), 0) = Ok st /\ built st.1.
  Proof.
    pose proof (t_root _ _ _ _ Ht) as Hr. pose proof (t_root_par _ _ _ _ Ht) as Hp.
    destruct (dfs_ok (S n) root (BL level (replicate n (replicate level 0)) (replicate n 0) (replicate n 0) (replicate n 0)) 0) as (b & t & E & _ & [PW PF PFin PN] & _).
    - lia.
    - exact Hr.
    - split; cbn; rewrite ?replicate_length; auto. intros v row Hv. apply lookup_replicate in Hv as [-> _]. apply replicate_length.
    - cbn. rewrite (t_root_dep _ _ _ _ Ht). apply lookup_replicate. auto.
    - intros k Hk Hne. rewrite (up_root _ _ _ _ Ht) in Hne. congruence.
    - rewrite Hp in E. exists (b, t). split; [exact E|]. cbn.
      assert (forall v, v < n -> anc root v) as A by (intros v Hv; apply (anc_root _ _ _ _ Ht); exact Hv).
      split; auto; intros v Hv; destruct (PFin v Hv (A v Hv)) as (H1 & H2 & _); auto.
  Qed.

  Context (b : bl) (B : built b).
  Lemma is_anc_ok u v : u < n -> v < n -> exists r, bl_is_ancestor b u v = Ok r /\ (r = true <-> anc u v).
  Proof.
    intros Hu Hv. destruct (b_wf _ B) as [W1 W2 W3 W4 W5 W6].
    destruct (vget_lt (bl_tin b) u) as (tu & Eu & Lu); [lia|]. destruct (vget_lt (bl_tin b) v) as (tv & Ev & Lv); [lia|].
    destruct (vget_lt (bl_tout b) u) as (ou & Eo & Lo); [lia|]. pose proof (b_nest _ B u v Hu Hv tu ou tv Lu Lo Lv) as N.
    unfold bl_is_ancestor. rewrite Ev. cbn [mbind res_bind]. rewrite Eu. cbn [mbind res_bind]. destruct (Nat.leb_spec tu tv).
    - rewrite Eo. cbn [mbind res_bind]. eexists. split; [reflexivity|]. rewrite Nat.ltb_lt, <- N. lia.
    - exists false. split; [reflexivity|]. split; [discriminate|]. intros A. apply N in A. lia.
  Qed.

  Lemma lca_ok u v : u < n -> v < n -> exists l, bl_lca b u v = Ok l /\ l < n /\ lcap par u v l.
  Proof.
    intros Hu Hv. unfold bl_lca. destruct (is_anc_ok u v Hu Hv) as (r1 & -> & R1). cbn [mbind res_bind]. destruct r1.
    { exists u. split; [reflexivity|]. split; [exact Hu|]. apply lcap_anc. apply R1. reflexivity. }
    assert (~ anc u v) as Huv by (intros A; apply R1 in A; discriminate). clear R1.
    destruct (is_anc_ok v u Hv Hu) as (r2 & -> & R2). cbn [mbind res_bind]. destruct r2.
    { exists v. split; [reflexivity|]. split; [exact Hv|]. destruct (proj1 R2 eq_refl) as [k A]. split; [exists k; exact A|]. split; [apply anc_refl|]. auto. }
    clear R2. rewrite (w_level _ (b_wf _ B)). unfold range.
    destruct (rfor_rev_range_inv (fun i x => x < n /\ anc x u /\ ~ anc x v /\ anc (up (2 ^ i) x) v) 0 level
      (fun i u => x ← pa_get (bl_pa b) u i; a ← bl_is_ancestor b x v; if a : bool then Ok u else Ok x) u) as (x & E & Hx & A1 & A2 & A3).
    - lia.
    - split; [exact Hu|]. split; [apply anc_refl|]. split; [exact Huv|]. rewrite (up_high _ _ _ _ Ht); auto; [apply (anc_root _ _ _ _ Ht); exact Hv|].
      pose proof (dep_lt _ _ _ _ Ht u Hu). lia.
    - intros i x Hi (Hx & A1 & A2 & A3). rewrite (good_pa_get _ x i) by (auto using b_pa; lia). cbn [mbind res_bind].
      assert (up (2 ^ i) x < n) as Hy by (apply (up_lt _ _ _ _ Ht); exact Hx).
      destruct (is_anc_ok (up (2 ^ i) x) v Hy Hv) as (r & -> & R). cbn [mbind res_bind]. destruct r.
      + exists x. split; [reflexivity|]. split; [exact Hx|]. split; [exact A1|]. split; [exact A2|]. apply R. reflexivity.
      + exists (up (2 ^ i) x). split; [reflexivity|]. split; [exact Hy|]. split; [eapply anc_trans; [apply anc_up|exact A1]|].
        split; [intros A; apply R in A; discriminate|]. rewrite <- up_add. replace (2 ^ i + 2 ^ i) with (2 ^ (i + 1)); [exact A3|]. rewrite Nat.add_1_r, Nat.pow_succ_r'. lia.
    - rewrite E. cbn [mbind res_bind]. rewrite (good_pa_get _ x 0) by (auto using b_pa; lia). eexists. split; [reflexivity|]. cbn in A3 |- *.
      split; [apply (par_lt _ _ _ _ Ht); exact Hx|]. eapply lcap_intro; eauto.
  Qed.

  Lemma dis_ok u v : u < n -> v < n -> exists d, bl_dis b u v = Ok d /\ is_dist g u v d.
  Proof.
    intros Hu Hv. unfold bl_dis. destruct (lca_ok u v Hu Hv) as (l & -> & Hl & L). cbn [mbind res_bind].
    rewrite (vget_ok _ _ _ (b_dep _ B u Hu)). cbn [mbind res_bind]. rewrite (vget_ok _ _ _ (b_dep _ B l Hl)). cbn [mbind res_bind].
    pose proof L as (L1 & L2 & _). pose proof (anc_dep _ _ _ _ Ht l u Hu L1). pose proof (anc_dep _ _ _ _ Ht l v Hv L2).
    assert (nsub (dep u) (dep l) = Ok (dep u - dep l)) as -> by (unfold nsub; rewrite (proj2 (Nat.leb_le _ _)) by lia; reflexivity). cbn [mbind res_bind].
    rewrite (vget_ok _ _ _ (b_dep _ B v Hv)). cbn [mbind res_bind]. unfold nsub. rewrite (proj2 (Nat.leb_le _ _)) by lia.
    eexists. split; [reflexivity|]. replace (dep u - dep l + dep v - dep l) with (dep u + dep v - 2 * dep l) by lia. apply (dist_ok _ _ _ _ Ht); auto.
  Qed.
End lift.

Lemma from_ok g root par dep : rtree g root par dep -> (Z.of_nat (length g) < 2 ^ 64)%Z ->
  exists b level, bl_from g root = Ok b /\ 1 <= level /\ length g < 2 ^ level /\ built g par dep level b.
Proof.
  intros Ht Hn. pose proof (t_root _ _ _ _ Ht) as Hr. unfold bl_from. rewrite lg_spec by lia. cbn [mbind res_bind].
  assert (length g < 2 ^ (Z.to_nat (Z.log2 (Z.of_nat (length g))) + 1)) as Hp.
  { apply Nat2Z.inj_lt. rewrite Nat2Z.inj_pow, Nat2Z.inj_add, Z2Nat.id by apply Z.log2_nonneg. apply Z.log2_spec. lia. }
  destruct (dfs_built g root par dep Ht (Z.to_nat (Z.log2 (Z.of_nat (length g))) + 1) ltac:(lia) Hp) as (st & -> & B).
  cbn [mbind res_bind]. exists st.1, (Z.to_nat (Z.log2 (Z.of_nat (length g))) + 1). split; [reflexivity|]. split; [lia|]. auto.
Qed.
