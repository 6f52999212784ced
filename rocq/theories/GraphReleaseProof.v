(** Proofs for GraphReleaseModel.v *)
From stdpp Require Import relations.
From Verif Require Import Prelude IntModel HeapModel ArraySpec DijkstraModel DijkstraSpec DijkstraProof DinicModel DinicSpec DinicProof
  NumReleaseModel GraphReleaseModel GraphReleaseSpec.
Open Scope Z_scope.

(** ** What completes in the dev profile completes alike in the release profile *)
Definition okle {A} (x y : res A) : Prop := forall a, x = Ok a -> y = Ok a.
Lemma okle_refl {A} (x : res A) : okle x x.
Proof. intros a H. exact H. Qed.
Lemma okle_bind {A B} (x y : res A) (f g : A -> res B) : okle x y -> (forall a, okle (f a) (g a)) -> okle (x ≫= f) (y ≫= g).
Proof. intros H Hf b E. apply rbind_ok_inv in E as (a & Ea & E). rewrite (H a Ea). cbn. apply Hf. exact E. Qed.
Lemma chk_wrap T z a : 0 < it_bits T -> chk T z = Ok a -> a = wrap T z.
Proof.
  intros HT Ea. unfold chk in Ea. destruct (Z.leb_spec (it_min T) z), (Z.leb_spec z (it_max T)); cbn in Ea; try discriminate.
  injection Ea as <-. symmetry. apply wrap_id; [exact HT|]. split; assumption.
Qed.
Lemma okle_add {B} T x y (f : Z -> res B) (g : res B) : 0 < it_bits T -> okle (f (wr_add T x y)) g -> okle (iadd T x y ≫= f) g.
Proof. intros HT Hf b E. apply rbind_ok_inv in E as (a & Ea & E). rewrite (chk_wrap T _ a HT Ea) in E. apply Hf. exact E. Qed.
Lemma okle_sub {B} T x y (f : Z -> res B) (g : res B) : 0 < it_bits T -> okle (f (wr_sub T x y)) g -> okle (isub T x y ≫= f) g.
Proof. intros HT Hf b E. apply rbind_ok_inv in E as (a & Ea & E). rewrite (chk_wrap T _ a HT Ea) in E. apply Hf. exact E. Qed.
Lemma okle_rfor {A S} (xs : list A) (f g : A -> S -> res S) : (forall x s, okle (f x s) (g x s)) -> forall s, okle (rfor xs f s) (rfor xs g s).
Proof. intros H. induction xs as [|x xs IH]; intros s; [apply okle_refl|]. cbn [rfor]. apply okle_bind; [apply H|exact IH]. Qed.
Lemma okle_rloop {S R} (f g : S -> res (S + R)) : (forall s, okle (f s) (g s)) -> forall n m s, (n <= m)%nat -> okle (rloop n f s) (rloop m g s).
Proof.
  intros H n. induction n as [|n IH]; intros m s Hm; [intros a; discriminate|]. destruct m as [|m]; [lia|].
  cbn [rloop]. apply okle_bind; [apply H|]. intros [s'|r]; [apply IH; lia|apply okle_refl].
Qed.

(** ** Dijkstra *)
Lemma wrap_usize x : wrap usize x = x mod 2 ^ 64.
Proof. unfold wrap. change (it_min usize) with 0. change (it_bits usize) with 64. rewrite Z.sub_0_r. lia. Qed.

Definition dval (x : option Z) : Z := match x with None => 2 ^ 64 | Some d => d end.
Fixpoint pot (dis : list (option Z)) : Z := match dis with [] => 0 | x :: dis => dval x + pot dis end.
Lemma pot_insert dis : forall v x y, dis !! v = Some x -> pot (<[v:=y]> dis) = pot dis - dval x + dval y.
Proof.
  induction dis as [|z dis IH]; intros v x y H; [discriminate|]. destruct v as [|v]; cbn in H.
  - injection H as ->. cbn [pot insert list_insert]. lia.
  - cbn [insert list_insert pot]. change (list_insert v y dis) with (<[v:=y]> dis). rewrite (IH _ _ _ H). lia.
Qed.
Lemma pot_nonneg dis : (forall v d, dis !! v = Some (Some d) -> 0 <= d) -> 0 <= pot dis.
Proof.
  induction dis as [|x dis IH]; intros H; [reflexivity|]. cbn [pot].
  assert (0 <= pot dis) by (apply IH; intros v d Hv; apply (H (S v) d Hv)).
  destruct x as [d|]; cbn [dval]; [pose proof (H 0%nat d eq_refl); lia|lia].
Qed.

Section Dijkstra.
  Context (B : binheap (reverse (Z * nat))) (content : bh B -> list (reverse (Z * nat))).
  Context (HB : binheap_contract (rev_le pair_le) B content).
  Context (g : wgraph) (s : nat) (Hs : (s < length g)%nat).
  Notation bag := (bag B content).

  Record base (dis : list (option Z)) (q : bh B) : Prop := {
    b_len : length dis = length g;
    b_src : dis !! s = Some (Some 0);
    b_walk : forall v d, dis !! v = Some (Some d) -> 0 <= d < 2 ^ 64 /\ exists w, walk g s v w /\ d = w mod 2 ^ 64;
    b_bag : forall d v, (d, v) ∈ bag q -> (v < length g)%nat }.
  Definition done_at (dis : list (option Z)) (d : Z) (es : list (nat * Z)) : Prop :=
    forall v c, (v, c) ∈ es -> exists d', dis !! v = Some (Some d') /\ d' <= (d + c) mod 2 ^ 64.
  Definition rinv (dis : list (option Z)) (q : bh B) : Prop :=
    base dis q /\ forall v d, dis !! v = Some (Some d) -> (d, v) ∈ bag q \/ exists es, g !! v = Some es /\ done_at dis d es.
  (** Inside the edge loop of u popped with d. *)
  Definition rinv2 (d0 : Z) (u : nat) (es0 : list (nat * Z)) (dis : list (option Z)) (q : bh B) : Prop :=
    base dis q /\ done_at dis d0 es0 /\
    forall v d, dis !! v = Some (Some d) -> (v = u /\ d = d0) \/ (d, v) ∈ bag q \/ exists es, g !! v = Some es /\ done_at dis d es.
  Definition meas (dis : list (option Z)) (q : bh B) : Z := 2 * pot dis + Z.of_nat (length (bag q)).

  Lemma relax_release_ok d u es es0 v c dis q : rinv2 d u es0 dis q -> (exists w, walk g s u w /\ d = w mod 2 ^ 64) ->
    g !! u = Some es -> (v, c) ∈ es -> (v < length g)%nat ->
    exists dis' q', relax_release B d (v, c) (dis, q) = Ok (dis', q') /\ rinv2 d u (es0 ++ [(v, c)]) dis' q' /\ meas dis' q' <= meas dis q.
  Proof.
    intros (Hb & He & Ho) (w & Hw & Hdw) Hu Hc Hv. unfold relax_release.
    destruct (lookup_lt_is_Some_2 dis v) as [dv Hdv]; [rewrite (b_len _ _ Hb); exact Hv|].
    rewrite (vget_ok _ _ _ Hdv). cbn [mbind res_bind]. unfold wr_add. rewrite wrap_usize. set (n := (d + c) mod 2 ^ 64).
    assert (Hn : 0 <= n < 2 ^ 64) by (apply Z.mod_pos_bound; lia).
    assert (Hkeep : (exists x, dv = Some x /\ x <= n) -> rinv2 d u (es0 ++ [(v, c)]) dis q).
    { intros (x & -> & Hx). split; [exact Hb|]. split; [|exact Ho]. intros v' c' [Hin|Hin]%elem_of_app; [apply He; exact Hin|].
      apply elem_of_list_singleton in Hin as [= -> ->]. exists x. split; [exact Hdv|exact Hx]. }
    assert (Hrel : n < dval dv -> exists dis' q', (dis ← vset dis v (Some n); Ok (dis, mh_push B q (n, v))) = Ok (dis', q') /\
      rinv2 d u (es0 ++ [(v, c)]) dis' q' /\ meas dis' q' <= meas dis q).
    { intros Hlt. rewrite vset_ok by (rewrite (b_len _ _ Hb); exact Hv). cbn [mbind res_bind]. eexists _, _. split; [reflexivity|].
      assert (Hlv : (v < length dis)%nat) by (apply lookup_lt_Some in Hdv; exact Hdv).
      assert (Hother : forall x, x <> v -> <[v:=Some n]> dis !! x = dis !! x) by (intros x Hx; apply list_lookup_insert_ne; congruence).
      assert (Hsame : <[v:=Some n]> dis !! v = Some (Some n)) by (apply list_lookup_insert; exact Hlv).
      assert (Hbag : forall y, y ∈ bag (mh_push B q (n, v)) <-> y = (n, v) \/ y ∈ bag q).
      { intros y. rewrite (bag_push B content HB). apply elem_of_cons. }
      assert (Hle : forall x dx, dis !! x = Some (Some dx) -> exists dx', <[v:=Some n]> dis !! x = Some (Some dx') /\ dx' <= dx).
      { intros x dx Hx. destruct (decide (x = v)) as [->|Hne]; [|rewrite Hother by exact Hne; exists dx; split; [exact Hx|lia]].
        exists n. split; [exact Hsame|]. rewrite Hx in Hdv. injection Hdv as <-. cbn in Hlt. lia. }
      assert (Hmono : forall x es1, done_at dis x es1 -> done_at (<[v:=Some n]> dis) x es1).
      { intros x es1 H1 v1 c1 Hin. destruct (H1 v1 c1 Hin) as (d1 & Hd1 & Hle1). destruct (Hle _ _ Hd1) as (d2 & Hd2 & Hle2). exists d2. split; [exact Hd2|lia]. }
      split.
      - destruct Hb as [B1 B2 B3 B4]. split; [split|split].
        + rewrite insert_length. exact B1.
        + destruct (decide (s = v)) as [->|Hne]; [|rewrite Hother by exact Hne; exact B2].
          rewrite B2 in Hdv. injection Hdv as <-. cbn in Hlt. lia.
        + intros x dx Hx. destruct (decide (x = v)) as [->|Hne]; [|rewrite Hother in Hx by exact Hne; apply B3; exact Hx].
          rewrite Hsame in Hx. injection Hx as <-. split; [exact Hn|]. exists (w + c). split; [eapply walk_snoc; eassumption|].
          unfold n. rewrite Hdw. apply Zplus_mod_idemp_l.
        + intros d1 x Hin. apply Hbag in Hin as [[= -> ->]|Hin]; [exact Hv|eapply B4; exact Hin].
        + intros v1 c1 [Hin|Hin]%elem_of_app; [apply (Hmono _ _ He); exact Hin|].
          apply elem_of_list_singleton in Hin as [= -> ->]. exists n. split; [exact Hsame|unfold n; lia].
        + intros x dx Hx. destruct (decide (x = v)) as [->|Hne].
          * rewrite Hsame in Hx. injection Hx as <-. right. left. apply Hbag. left. reflexivity.
          * rewrite Hother in Hx by exact Hne. destruct (Ho x dx Hx) as [H1|[H1|(es1 & H1 & H2)]]; [left; exact H1|right; left; apply Hbag; right; exact H1|].
            right. right. exists es1. split; [exact H1|apply Hmono; exact H2].
      - unfold meas. rewrite (pot_insert _ _ _ _ Hdv), (Permutation_length (bag_push B content HB q (n, v))). cbn [length dval]. lia. }
    destruct dv as [x|].
    - destruct (Z.ltb_spec n x) as [Hlt|Hge].
      + apply Hrel. exact Hlt.
      + exists dis, q. split; [reflexivity|]. split; [|lia]. apply Hkeep. exists x. auto.
    - apply Hrel. cbn. lia.
  Qed.

  Definition rbad : Prop := exists u w es v c, walk g s u w /\ g !! u = Some es /\ (v, c) ∈ es /\ (length g <= v)%nat.

  Lemma dijkstra_release_ok : exists N, forall fuel, (N <= fuel)%nat ->
    (dijkstra_release B fuel g s = Panic /\ rbad) \/
    exists dis, dijkstra_release B fuel g s = Ok dis /\ wrapped_distances g s dis /\ ~ rbad.
  Proof.
    set (dis0 := <[s:=Some 0]> (replicate (length g) None)). set (q0 := mh_push B (mh_new B) (0, s)).
    exists (S (Z.to_nat (meas dis0 q0))). intros fuel Hfuel.
    unfold dijkstra_release. rewrite vset_ok by (rewrite replicate_length; exact Hs). cbn [mbind res_bind]. fold dis0 q0.
    assert (Hbag0 : bag q0 = [(0, s)]).
    { apply Permutation_singleton_r. unfold q0. rewrite (bag_push B content HB). unfold DijkstraProof.bag, mh_new. rewrite (bc_new _ _ _ HB). reflexivity. }
    assert (Hdis0 : forall v d, dis0 !! v = Some (Some d) <-> v = s /\ d = 0).
    { intros v d. unfold dis0. destruct (decide (v = s)) as [->|Hne].
      - rewrite list_lookup_insert by (rewrite replicate_length; exact Hs). split; [intros [= <-]; auto|intros [_ ->]; reflexivity].
      - rewrite list_lookup_insert_ne by congruence. split; [|tauto]. intros H. apply lookup_replicate in H as [H _]. discriminate. }
    assert (Hpos : forall dis q, base dis q -> 0 <= meas dis q).
    { intros dis q Hb. unfold meas. assert (0 <= pot dis) by (apply pot_nonneg; intros v d Hd; apply (b_walk _ _ Hb) in Hd; lia). lia. }
    apply (rloop_inv_p (fun m st => rinv st.1 st.2 /\ meas st.1 st.2 <= Z.of_nat m)
      (fun dis => wrapped_distances g s dis /\ ~ rbad) rbad) with (m := Z.to_nat (meas dis0 q0)); [| |lia].
    - intros m [dis q] [[Hb Ho] Hm]. cbn [fst snd] in *. unfold dijkstra_step_release.
      pose proof (bag_pop B content HB q) as Hpop. destruct (mh_pop B q) as [[[d u]|] q'].
      2:{ right. exists (inr dis). split; [reflexivity|].
          assert (Hclosed : forall v d, dis !! v = Some (Some d) -> exists es, g !! v = Some es /\ done_at dis d es).
          { intros v d Hd. destruct (Ho v d Hd) as [Hin|H]; [rewrite Hpop in Hin; inversion Hin|exact H]. }
          assert (Hreach : forall v w, walk g s v w -> exists d, dis !! v = Some (Some d)).
          { intros v w Hw. induction Hw as [|u w es v c _ IH Hu Hc]; [exists 0; apply (b_src _ _ Hb)|].
            destruct IH as (d & Hd). destruct (Hclosed u d Hd) as (es' & Hes' & Hdone). rewrite Hu in Hes'. injection Hes' as <-.
            destruct (Hdone v c Hc) as (d' & Hd' & _). exists d'. exact Hd'. }
          split.
          - split; [apply (b_len _ _ Hb)|]. split; [apply (b_src _ _ Hb)|]. split; [apply (b_walk _ _ Hb)|]. split; [exact Hreach|].
            intros u d es v c Hd Hu Hc. destruct (Hclosed u d Hd) as (es' & Hes' & Hdone). rewrite Hu in Hes'. injection Hes' as <-. apply Hdone. exact Hc.
          - intros (u & w & es & v & c & Hw & Hu & Hc & Hv). destruct (Hreach u w Hw) as (d & Hd). destruct (Hclosed u d Hd) as (es' & Hes' & Hdone).
            rewrite Hu in Hes'. injection Hes' as <-. destruct (Hdone v c Hc) as (d' & Hd' & _). apply lookup_lt_Some in Hd'. rewrite (b_len _ _ Hb) in Hd'. lia. }
      destruct Hpop as [Hperm _].
      assert (Hmem : forall y, y ∈ bag q <-> y = (d, u) \/ y ∈ bag q') by (intros y; rewrite Hperm; apply elem_of_cons).
      assert (Hu : (u < length g)%nat) by (eapply (b_bag _ _ Hb); apply Hmem; left; reflexivity).
      assert (Hb' : base dis q').
      { destruct Hb as [B1 B2 B3 B4]. split; auto. intros d1 v Hin. eapply B4. apply Hmem. right. exact Hin. }
      assert (Hmeas : meas dis q' < meas dis q) by (unfold meas; rewrite (Permutation_length Hperm); cbn [length]; lia).
      destruct (lookup_lt_is_Some_2 dis u) as [du Hdu]; [rewrite (b_len _ _ Hb); exact Hu|].
      rewrite (vget_ok _ _ _ Hdu). cbn [mbind res_bind]. pose proof (Hpos dis q' Hb') as Hp'.
      destruct (decide (Some d = du)) as [<-|Hne].
      2:{ right. eexists. split; [reflexivity|]. exists (Z.to_nat (meas dis q')). split; [lia|]. split; [|cbn [fst snd]; lia]. split; [exact Hb'|]. cbn [fst snd].
          intros v d1 Hd1. destruct (Ho v d1 Hd1) as [Hin|H]; [|right; exact H]. apply Hmem in Hin as [[= -> ->]|Hin]; [congruence|left; exact Hin]. }
      destruct (lookup_lt_is_Some_2 g u Hu) as [es Hes]. rewrite (vget_ok _ _ _ Hes). cbn [mbind res_bind].
      destruct (b_walk _ _ Hb u d Hdu) as (_ & Hw).
      destruct (rfor_inv_p (fun done st => rinv2 d u done st.1 st.2 /\ meas st.1 st.2 <= meas dis q') rbad es (relax_release B d) (dis, q'))
        as [[E HP]|([dis' q''] & E & H2 & Hm2)].
      + cbn [fst snd]. split; [|lia]. split; [exact Hb'|]. split; [intros v c Hin; inversion Hin|].
        intros v d1 Hd1. destruct (Ho v d1 Hd1) as [Hin|H]; [|right; right; exact H]. apply Hmem in Hin as [[= -> ->]|Hin]; [left; auto|right; left; exact Hin].
      + intros done [v c] rest [dis1 q1] Hsp [H2 Hm2]. cbn [fst snd] in *.
        assert (Hin : (v, c) ∈ es) by (rewrite Hsp; apply elem_of_app; right; left).
        destruct (decide (v < length g)%nat) as [Hv|Hv].
        * right. destruct (relax_release_ok d u es done v c dis1 q1 H2 Hw Hes Hin Hv) as (dis2 & q2 & E & H3 & Hm3).
          exists (dis2, q2). split; [exact E|]. split; [exact H3|cbn [fst snd]; lia].
        * left. split.
          -- unfold relax_release. rewrite vget_panic; [reflexivity|]. rewrite (b_len _ _ (proj1 H2)). lia.
          -- destruct Hw as (w & Hw & _). exists u, w, es, v, c. split; [exact Hw|]. split; [exact Hes|]. split; [exact Hin|lia].
      + left. rewrite E. cbn. auto.
      + right. rewrite E. cbn [mbind res_bind]. eexists. split; [reflexivity|]. cbn [fst snd] in *. exists (Z.to_nat (meas dis' q'')).
        destruct H2 as (Hb2 & Hdone & Ho2). pose proof (Hpos dis' q'' Hb2). split; [lia|]. split; [|lia]. split; [exact Hb2|].
        intros v d1 Hd1. destruct (Ho2 v d1 Hd1) as [[-> ->]|HH]; [|exact HH]. right. exists es. split; [exact Hes|exact Hdone].
    - cbn [fst snd]. assert (base dis0 q0) as Hb0.
      { split.
        - unfold dis0. rewrite insert_length, replicate_length. reflexivity.
        - apply Hdis0. auto.
        - intros v d [-> ->]%Hdis0. split; [lia|]. exists 0. split; [constructor|reflexivity].
        - intros d v Hin. rewrite Hbag0 in Hin. apply elem_of_list_singleton in Hin as [= -> ->]. exact Hs. }
      pose proof (Hpos dis0 q0 Hb0). split; [|lia]. split; [exact Hb0|].
      intros v d [-> ->]%Hdis0. left. rewrite Hbag0. left.
  Qed.

  Lemma dijkstra_okle fuel : (length (concat g) + 2 <= fuel)%nat -> okle (dijkstra B g s) (dijkstra_release B fuel g s).
  Proof.
    intros Hf. unfold dijkstra, dijkstra_release. apply okle_bind; [apply okle_refl|]. intros dis. apply okle_rloop; [|exact Hf].
    intros [dis1 q]. unfold dijkstra_step, dijkstra_step_release. destruct (mh_pop B q) as [[[d u]|] q']; [|apply okle_refl].
    apply okle_bind; [apply okle_refl|]. intros du. destruct (decide _); [|apply okle_refl].
    apply okle_bind; [apply okle_refl|]. intros es. apply okle_bind; [|intros; apply okle_refl].
    apply okle_rfor. intros [v c] [dis2 q2]. unfold relax, relax_release. apply okle_bind; [apply okle_refl|]. intros dv.
    apply okle_add; [reflexivity|]. apply okle_refl.
  Qed.
End Dijkstra.

(** ** Dinic *)
Lemma bfs_scan_okle e u t es : forall h q, okle (bfs_scan e u t es h q) (bfs_scan_release e u t es h q).
Proof.
  induction es as [|i es IH]; intros h q; [apply okle_refl|]. cbn [bfs_scan bfs_scan_release]. apply okle_bind; [apply okle_refl|]. intros [v c].
  destruct (0 <? c); [|apply IH]. apply okle_bind; [apply okle_refl|]. intros hv. destruct (hv =? -1); [|apply IH].
  apply okle_bind; [apply okle_refl|]. intros hu. apply okle_add; [reflexivity|]. apply okle_bind; [apply okle_refl|]. intros h'.
  destruct (v =? t)%nat; [apply okle_refl|apply IH].
Qed.
Lemma bfs_okle e g h s t : okle (bfs e g h s t) (bfs_release e g h s t).
Proof.
  unfold bfs, bfs_release. apply okle_bind; [apply okle_refl|]. intros h'. apply okle_rloop; [|lia]. intros [h1 [|u q]]; [apply okle_refl|].
  cbn [bfs_step bfs_step_release]. apply okle_bind; [apply okle_refl|]. intros es. apply okle_bind; [apply bfs_scan_okle|]. intros x. apply okle_refl.
Qed.
Lemma fdfs_okle T g h t : 0 < it_bits T -> forall fuel u f e cur, okle (fdfs fuel T g h t u f e cur) (fdfs_release fuel T g h t u f e cur).
Proof.
  intros HT fuel. induction fuel as [|fuel IH]; intros u f e cur; [apply okle_refl|]. cbn [fdfs fdfs_release].
  destruct (u =? t)%nat; [apply okle_refl|]. apply okle_bind; [apply okle_refl|]. intros i. apply okle_bind; [apply okle_refl|]. intros js.
  apply okle_bind.
  2:{ intros x. apply okle_sub; [exact HT|]. apply okle_refl. }
  apply okle_rloop; [|lia]. intros [[[r i'] e'] cur']. unfold dfs_step, dfs_step_release. apply okle_bind; [apply okle_refl|]. intros js'.
  destruct (i' <? length js')%nat; [|apply okle_refl]. apply okle_bind; [apply okle_refl|]. intros j. apply okle_bind; [apply okle_refl|]. intros [v c].
  apply okle_bind.
  { destruct (0 <? c); [|apply okle_refl]. apply okle_bind; [apply okle_refl|]. intros hv. apply okle_bind; [apply okle_refl|]. intros hu.
    apply okle_add; [reflexivity|]. apply okle_refl. }
  intros b. destruct b; [|apply okle_refl]. apply okle_bind; [apply IH|]. intros [a [e1 cur1]]. apply okle_bind; [apply okle_refl|]. intros ej.
  apply okle_sub; [exact HT|]. apply okle_bind; [apply okle_refl|]. intros e2. apply okle_bind; [apply okle_refl|]. intros ek.
  apply okle_add; [exact HT|]. apply okle_bind; [apply okle_refl|]. intros e3. apply okle_sub; [exact HT|]. apply okle_refl.
Qed.
Lemma max_flow_okle T d s t : 0 < it_bits T -> okle (dn_max_flow T d s t) (dn_max_flow_release T d s t).
Proof.
  intros HT. unfold dn_max_flow, dn_max_flow_release. apply okle_bind; [apply okle_refl|]. intros []. apply okle_bind; [apply okle_refl|]. intros [].
  apply okle_bind; [|intros; apply okle_refl]. apply okle_rloop; [|lia]. intros [ans d']. unfold flow_step, flow_step_release.
  apply okle_bind; [apply bfs_okle|]. intros [b h]. destruct b; [|apply okle_refl]. apply okle_bind; [apply fdfs_okle; exact HT|]. intros [a [e cur]].
  apply okle_add; [exact HT|]. apply okle_refl.
Qed.

(** A phase never brings t nearer. *)
Lemma phase_keep es n e e' s t h : s <> t -> found es n e s t h -> lev_le es h e e' -> dist_ge es e' s t (hl h t).
Proof.
  intros Hst Hf Hle h' Hs' Hp.
  set (L := hl h t). set (ht := fun x => if hl h x =? -1 then L else hl h x).
  assert (forall j, (j < 2 * length es)%nat -> 0 < cap e' j -> ht (eto es j) <= ht (esrc es j) + 1) as Hedge.
  { intros j Hj Hc. unfold ht, L. destruct Hf.
    pose proof (fo_up (eto es j)). pose proof (fo_up (esrc es j)).
    destruct (Hle j Hj) as [Hle'|[H1 H2]].
    - pose proof (fo_lab j Hj) as HH.
      destruct (Z.eqb_spec (hl h (eto es j)) (-1)), (Z.eqb_spec (hl h (esrc es j)) (-1)); try lia.
    - destruct (Z.eqb_spec (hl h (eto es j)) (-1)), (Z.eqb_spec (hl h (esrc es j)) (-1)); lia. }
  assert (ht s = 0 /\ ht t = L) as (Hhs & Hht).
  { destruct Hf. unfold ht, L. destruct (Z.eqb_spec (hl h s) (-1)), (Z.eqb_spec (hl h t) (-1)); lia. }
  assert (forall y, rtc (lstep es h' e') s y -> ht y <= hl h' y) as H.
  { apply rtc_ind_r; [lia|]. intros y z Hy (j & Hj & Hjs & Hjt & Hc & Hl) IH.
    pose proof (Hedge j Hj Hc) as He. rewrite Hjs, Hjt in He. lia. }
  rewrite <- Hht. apply H. exact Hp.
Qed.

Lemma cutflow_bound M es fs (X : nat -> bool) : Forall (fun x : fedge => 0 <= x.2 <= M) es -> Forall2 (fun e f => 0 <= f <= e.2) es fs ->
  - (Z.of_nat (length es) * M) <= cutflow es fs X <= Z.of_nat (length es) * M.
Proof.
  intros Hes H. induction H as [|[[u v] c] f es fs Hf _ IH]; [cbn; lia|]. inversion Hes as [|? ? Hc Hes']; subst. specialize (IH Hes').
  cbn [cutflow length snd] in *. rewrite Nat2Z.inj_succ. unfold bz. destruct (X u), (X v); lia.
Qed.
Lemma wrap_add_l T x a : 0 < it_bits T -> wrap T (wrap T x + a) = wrap T (x + a).
Proof.
  intros HT. unfold wrap. f_equal. set (M := 2 ^ it_bits T). set (l := it_min T).
  replace ((x - l) mod M + l + a - l) with ((x - l) mod M + a) by lia. rewrite Zplus_mod_idemp_l. f_equal. lia.
Qed.

Lemma max_flow_release_gen T n es d s t :
  0 < it_bits T -> 0 < it_max T -> it_min T <= 0 -> Z.of_nat n <= 2 ^ 31 - 1 -> Forall (fun x => 0 <= x.2 <= it_max T) es ->
  dinv n es d -> (s < n)%nat -> (t < n)%nat -> s <> t ->
  exists d' v, dn_max_flow_release T d s t = Ok (d', wrap T v) /\ 0 <= v /\ dinv n es d' /\ shifted es s t (dn_e d) (dn_e d') v /\
    closed es n (dn_e d') s t (dn_h d').
Proof.
  intros HTb HT HTm Hn Hes Hd Hs Ht Hst.
  assert (forall j, ecap es j <= it_max T) as Hcap.
  { intros j. unfold ecap. destruct (es !! (j / 2)%nat) as [[[u v] c]|] eqn:E; [|lia].
    rewrite Forall_forall in Hes. apply (Hes (u, v, c)). eapply elem_of_list_lookup_2. exact E. }
  assert (forall e' v, ewf es e' -> shifted es s t (dn_e d) e' v -> v <= 2 * Z.of_nat (length es) * it_max T) as Hvol.
  { intros e' v Hw Hx. pose proof (shifted_reroute es s t _ _ _ Hw Hx) as Hr. set (X := fun x => (x =? s)%nat).
    assert (X t = false) as Xt by (unfold X; apply Nat.eqb_neq; congruence).
    pose proof (reroute_cut n es s t _ _ _ X (gwf_es es (dn_g d) n (di_g _ _ _ Hd)) Hs (Nat.eqb_refl s) Xt Hr) as Hc.
    pose proof (cutflow_bound (it_max T) es _ X Hes (flow_of_within es _ (di_e _ _ _ Hd))).
    pose proof (cutflow_bound (it_max T) es _ X Hes (flow_of_within es _ Hw)). lia. }
  unfold dn_max_flow_release. rewrite (di_n _ _ _ Hd), (ewf_len _ _ (di_e _ _ _ Hd)).
  destruct (Nat.ltb_spec s n); [|lia]. destruct (Nat.ltb_spec t n); [|lia]. cbn [rassert mbind res_bind].
  destruct (rloop_inv_idx
    (fun m (x : Z * dinic) => dinv n es x.2 /\ exists v full dd, x.1 = wrap T v /\ 0 <= full /\ full * it_max T <= v /\
      shifted es s t (dn_e d) (dn_e x.2) v /\ dist_ge es (dn_e x.2) s t dd /\ Z.of_nat n - dd + (2 * Z.of_nat (length es) - full) < Z.of_nat m)
    (fun x : Z * dinic => dinv n es x.2 /\ exists v, x.1 = wrap T v /\ 0 <= v /\ shifted es s t (dn_e d) (dn_e x.2) v /\
      closed es n (dn_e x.2) s t (dn_h x.2)) (flow_step_release T s t))
    with (fuel := S (S (n + 2 * length es))) (m := S (n + 2 * length es)) (s := (0, d)) as ([r d'] & E & H1 & v & H2 & H3 & H4 & H5).
  - intros m [ans [dn e g cur h]] (HD & v & full & dd & Ha & Hf0 & Hfv & Hv & Hdd & Hm). cbn [fst snd dn_e dn_h dn_g dn_cur dn_n] in *. destruct HD as [di_n0 di_g0 di_e0 di_cur0 di_h0]. cbn [dn_e dn_h dn_g dn_cur dn_n] in *.
    unfold flow_step_release. cbn [dn_e dn_h dn_g dn_cur dn_n].
    destruct (bfs_ok es g n di_g0 e di_e0 Hn s t Hs Hst h di_h0) as (b & h' & Eb & Hb). rewrite (bfs_okle _ _ _ _ _ _ Eb). cbn [mbind res_bind].
    destruct b.
    2:{ eexists. split; [reflexivity|]. cbn. split; [split; auto; apply Hb|]. exists v. split; [exact Ha|]. split; [nia|]. auto. }
    destruct (fdfs_ok T HTm es g n di_g0 Hcap h' (fo_len _ _ _ _ _ _ Hb) (fo_b _ _ _ _ _ _ Hb) Hn t (S (S (length g))) s (it_max T) e
      (replicate (length cur) 0%nat)) as (a & e' & cur' & Ed & HP & Hdead); auto; try lia.
    { pose proof (fo_s _ _ _ _ _ _ Hb). lia. }
    { pose proof (fo_s _ _ _ _ _ _ Hb). rewrite (gwf_len es g n di_g0). lia. }
    { rewrite replicate_length. exact di_cur0. }
    { intros x js i j c _ Hc Hi. apply lookup_replicate in Hc as [-> _]. lia. }
    rewrite (fdfs_okle T g h' t HTb _ _ _ _ _ _ Ed). cbn [mbind res_bind].
    pose proof (dp_a _ _ _ _ _ _ _ _ _ _ _ HP) as Hab. pose proof (dp_wf _ _ _ _ _ _ _ _ _ _ _ HP) as Hwf'.
    assert (shifted es s t (dn_e d) e' (v + a)) as Hv'.
    { intros y. rewrite (dp_net _ _ _ _ _ _ _ _ _ _ _ HP y), (Hv y). lia. }
    pose proof (Hvol e' (v + a) Hwf' Hv') as Hvol'.
    eexists. split; [reflexivity|]. cbn [fst snd dn_e dn_h dn_g dn_cur dn_n].
    pose proof (Hdd h' (fo_s _ _ _ _ _ _ Hb) (fo_reach _ _ _ _ _ _ Hb)) as Hdl. pose proof (fo_b _ _ _ _ _ _ Hb t) as Htb.
    assert (dinv n es (DN dn e' g cur' h')) as HD'.
    { split; cbn; auto; try lia. rewrite (dp_cl _ _ _ _ _ _ _ _ _ _ _ HP), replicate_length. exact di_cur0. apply (fo_len _ _ _ _ _ _ Hb). }
    assert (wr_add T ans a = wrap T (v + a)) as Hans by (unfold wr_add; rewrite Ha; apply wrap_add_l; exact HTb).
    exists (pred m). destruct (decide (a < it_max T)) as [Hlt|Hge].
    + assert (full <= 2 * Z.of_nat (length es)) by nia.
      split; [lia|]. split; [exact HD'|]. exists (v + a), full, (hl h' t + 1). split; [exact Hans|]. split; [exact Hf0|]. split; [lia|]. split; [exact Hv'|].
      split; [|lia]. apply (phase_dist es n e e' s t h' Hst Hb (dp_le _ _ _ _ _ _ _ _ _ _ _ HP)). apply Hdead. exact Hlt.
    + assert (full + 1 <= 2 * Z.of_nat (length es)) by nia.
      split; [lia|]. split; [exact HD'|]. exists (v + a), (full + 1), (hl h' t). split; [exact Hans|]. split; [lia|]. split; [nia|]. split; [exact Hv'|].
      split; [|lia]. apply (phase_keep es n e e' s t h' Hst Hb (dp_le _ _ _ _ _ _ _ _ _ _ _ HP)).
  - cbn [fst snd]. split; [exact Hd|]. exists 0, 0, 0. split; [symmetry; apply wrap_id; [exact HTb|unfold in_ty; lia]|]. split; [lia|]. split; [lia|]. split; [intros x; lia|].
    split; [|lia].
    intros h Hh Hr. clear -Hh Hr. assert (forall y, rtc (lstep es h (dn_e d)) s y -> 0 <= hl h y) as H; [|auto].
    apply rtc_ind_r; [lia|]. intros y z Hy Hyz IH. destruct Hyz as (j & ? & ? & ? & ? & ?). lia.
  - lia.
  - rewrite E. cbn [mbind res_bind fst snd] in *. exists d', v. rewrite H2. auto.
Qed.

Lemma wrap_cong T x : 0 < it_bits T -> (2 ^ it_bits T | wrap T x - x).
Proof.
  intros HT. unfold wrap. exists (- ((x - it_min T) / 2 ^ it_bits T)). rewrite Zmod_eq_full by (apply Z.pow_nonzero; lia). lia.
Qed.

Lemma wraps_history T n : 0 < it_bits T -> 0 < it_max T -> it_min T <= 0 -> Z.of_nat n <= 2 ^ 31 - 1 ->
  forall ops es d, Forall (fun o => match o with DnEdge _ _ c => 0 <= c <= it_max T | DnFlow _ _ => True end) ops ->
  Forall (fun x => 0 <= x.2 <= it_max T) es -> dinv n es d ->
  dn_wraps T n es (flow_of es (dn_e d)) ops (snd <$> run (dn_step_release T) d ops).
Proof.
  intros HTb HT HTm Hn ops. induction ops as [|o ops IH]; intros es d Hops Hes Hd; [constructor|].
  inversion Hops as [|? ? Ho Hops']; subst.
  assert (forall d1 out, snd <$> ('(s, outs) ← run (dn_step_release T) d1 ops; Ok (s, out :: outs)) = cons out <$> (snd <$> run (dn_step_release T) d1 ops)) as Hcons.
  { intros d1 out. destruct (run (dn_step_release T) d1 ops) as [[? ?]| |]; reflexivity. }
  destruct o as [u v c|s t]; cbn [run dn_step_release].
  - destruct (decide ((u < n)%nat /\ (v < n)%nat)) as [[Hu Hv]|Hb].
    + destruct (add_edge_ok n es d u v c Hd Hu Hv ltac:(lia)) as (d1 & E & Hd1 & _). pose proof (add_edge_flow n es d u v c d1 Hd E) as Hf.
      rewrite E. cbn [mbind res_bind]. rewrite Hcons. constructor; auto. rewrite <- Hf. apply IH; auto. apply Forall_app. split; [exact Hes|]. constructor; [exact Ho|constructor].
    + rewrite (add_edge_bad n es d u v c Hd Hb). cbn. constructor. exact Hb.
  - destruct (decide ((s < n)%nat /\ (t < n)%nat)) as [[Hs Ht]|Hb].
    + destruct (decide (s = t)) as [<-|Hst].
      * destruct (max_flow_self T n es d s Hd Hn Hs) as (d1 & E & Hd1 & He). rewrite (max_flow_okle T d s s HTb _ E). cbn [mbind res_bind fst snd]. rewrite Hcons.
        constructor; [exact Hs|]. rewrite <- He. apply IH; auto.
      * destruct (max_flow_release_gen T n es d s t) as (d1 & v & E & Hv & Hd1 & Hx & Hc); auto.
        rewrite E. cbn [mbind res_bind fst snd]. rewrite Hcons. apply (dw_flow _ _ _ _ (flow_of es (dn_e d1)) s t v); auto.
        -- apply shifted_reroute; [apply Hd1|exact Hx].
        -- eapply closed_most; eauto; apply Hd1.
        -- apply wrap_in. exact HTb.
        -- apply wrap_cong. exact HTb.
    + assert (dn_max_flow_release T d s t = Panic) as ->.
      { unfold dn_max_flow_release. rewrite (di_n _ _ _ Hd). destruct (Nat.ltb_spec s n); [|reflexivity]. destruct (Nat.ltb_spec t n); [|reflexivity]. lia. }
      cbn. constructor. exact Hb.
Qed.

(** Whatever the history: if the dev profile completes, the release profile answers alike. *)
Lemma run_okle T : 0 < it_bits T -> forall ops d, okle (run (dn_step T) d ops) (run (dn_step_release T) d ops).
Proof.
  intros HT ops. induction ops as [|o ops IH]; intros d; cbn [run]; [apply okle_refl|]. apply okle_bind.
  - destruct o as [u v c|s t]; cbn [dn_step dn_step_release]; [apply okle_refl|]. apply okle_bind; [exact (max_flow_okle T d s t HT)|]. intros x. apply okle_refl.
  - intros [d' out]. apply okle_bind; [apply IH|]. intros [d'' outs]. apply okle_refl.
Qed.
Close Scope Z_scope.
