(** Proofs about the record of a run of dijkstra. *)
From Coq Require Import Sorting.Sorted.
From Verif Require Import Prelude IntModel HeapModel DijkstraModel DijkstraSpec DijkstraProof DijkstraLogModel DijkstraLogSpec.
Open Scope Z_scope.

(** The record does not change what is computed. *)
Section Erase.
  Context (B : binheap (reverse (Z * nat))).

  Lemma relax_erase d u e dis q w : fst <$> relax_log B d u e (dis, q, w) = relax B d e (dis, q).
  Proof.
    unfold relax_log, relax. destruct e as [v c]. destruct (vget dis v) as [dv| |]; cbn [mbind res_bind]; try reflexivity.
    destruct (iadd usize d c) as [n| |]; cbn [mbind res_bind]; try reflexivity. destruct (match dv with None => true | Some x => n <? x end); [|reflexivity].
    destruct (vset dis v (Some n)); reflexivity.
  Qed.
  Lemma relaxes_erase d u es dis q w : fst <$> rfor es (relax_log B d u) (dis, q, w) = rfor es (relax B d) (dis, q).
  Proof.
    revert dis q w. induction es as [|e es IH]; intros dis q w; [reflexivity|]. cbn [rfor]. rewrite <- (relax_erase d u e dis q w).
    destruct (relax_log B d u e (dis, q, w)) as [[[dis1 q1] w1]| |]; cbn; [apply IH|reflexivity..].
  Qed.
  Lemma dijkstra_erase g s : fst <$> dijkstra_log B g s = dijkstra B g s.
  Proof.
    unfold dijkstra_log, dijkstra. destruct (vset (replicate (length g) None) s (Some 0)) as [dis| |]; cbn [mbind res_bind]; try reflexivity.
    generalize (mh_push B (mh_new B) (0, s)) as q. generalize [DjPush 0 s] as w. generalize (length (concat g) + 2)%nat as fuel. intros fuel. revert dis.
    induction fuel as [|fuel IH]; intros dis w q; [reflexivity|]. cbn [rloop]. unfold dijkstra_step_log, dijkstra_step.
    destruct (mh_pop B q) as [[[d u]|] q']; [|reflexivity]. destruct (vget dis u) as [du| |]; cbn [mbind res_bind]; try reflexivity.
    destruct (decide (Some d = du)); [|apply IH]. destruct (vget g u) as [es| |]; cbn [mbind res_bind]; try reflexivity.
    rewrite <- (relaxes_erase d u es dis q' ((w ++ [DjPop d u]) ++ [DjScan d u])).
    destruct (rfor es (relax_log B d u) _) as [[[dis1 q1] w1]| |]; cbn; [apply IH|reflexivity..].
  Qed.
End Erase.

Lemma sorted_snoc (l : list Z) x : StronglySorted Z.le l -> Forall (fun y => y <= x) l -> StronglySorted Z.le (l ++ [x]).
Proof.
  intros H F. induction H as [|y l H IH Hy]; cbn [app]; [repeat constructor|]. apply Forall_cons in F as [F1 F2]. constructor; [apply IH, F2|].
  apply Forall_app. split; [exact Hy|]. constructor; [exact F1|constructor].
Qed.

Section Proof.
  Context (B : binheap (reverse (Z * nat))) (content : bh B -> list (reverse (Z * nat))).
  Context (HB : binheap_contract (rev_le pair_le) B content).
  Context (g : wgraph) (s : nat) (Hg : nonneg g) (Hs : (s < length g)%nat).
  Notation bag := (bag B content).

  (** The heap operations of the record, the last value popped (0 at the start) being at most d. *)
  Record winv (d : Z) (dis : list (option Z)) (q : bh B) (w : list dj_event) : Prop := {
    w_bag : dj_pushes w ≡ₚ dj_pops w ++ bag q;
    w_nodup : NoDup (dj_pushes w);
    w_ge : forall d v, (d, v) ∈ dj_pushes w -> exists d', dis !! v = Some (Some d') /\ d' <= d;
    w_count : (length (dj_pushes w) <= 1 + length (dj_edges w))%nat;
    w_sorted : StronglySorted Z.le (dj_pops w).*1;
    w_last : Forall (fun y => y <= d) (dj_pops w).*1;
    w_min : forall y, y ∈ bag q -> d <= y.1 }.

  (** Which vertices were scanned: P *)
  Record sinv (d : Z) (P : list nat) (w : list dj_event) : Prop := {
    s_scans : (dj_scans w).*2 = rev P;
    s_nodup : NoDup P;
    s_short : forall d u, (d, u) ∈ dj_scans w -> shortest g s u d;
    s_sorted : StronglySorted Z.le (dj_scans w).*1;
    s_last : Forall (fun y => y <= d) (dj_scans w).*1 }.

  Lemma relax_log_ok P d u es es0 v c dis q w : inv2 B content g s P d u es0 dis q -> winv d dis q w -> g !! u = Some es -> (v, c) ∈ es ->
    (v < length g)%nat -> d + c <= 2 ^ 64 - 1 ->
    exists dis' q' w', relax_log B d u (v, c) (dis, q, w) = Ok (dis', q', w') /\ inv2 B content g s P d u (es0 ++ [(v, c)]) dis' q' /\ winv d dis' q' w' /\
      dj_scans w' = dj_scans w /\ dj_edges w' = dj_edges w ++ [(u, (v, c))] /\ (length (bag q') <= S (length (bag q)))%nat.
  Proof.
    intros J W Hu Hc Hv Hmax. destruct (relax_ok B content HB g s Hg Hs P d u es es0 v c dis q J Hu Hc Hv Hmax) as (dis' & q' & E & J' & Hl).
    pose proof (Hg _ _ _ _ Hu Hc) as Hc0. unfold relax in E. unfold relax_log.
    destruct (vget dis v) as [dv| |] eqn:Edv; cbn [mbind res_bind] in *; try discriminate. apply vget_ok_iff in Edv.
    destruct (iadd usize d c) as [n| |] eqn:En; cbn [mbind res_bind] in *; try discriminate.
    assert (Hd0 : 0 <= d) by (apply (walk_nonneg g s Hg Hs u), (j_walk _ _ _ _ _ _ _ _ _ _ J), (j_u _ _ _ _ _ _ _ _ _ _ J)).
    rewrite iadd_ok in En by (rewrite usize_range; lia). injection En as <-.
    destruct W as [W1 W2 W3 W4 W5 W6 W7].
    assert (Hsplit : forall w x, dj_pushes (w ++ [x]) = dj_pushes w ++ dj_pushes [x] /\ dj_pops (w ++ [x]) = dj_pops w ++ dj_pops [x] /\
      dj_scans (w ++ [x]) = dj_scans w ++ dj_scans [x] /\ dj_edges (w ++ [x]) = dj_edges w ++ dj_edges [x]) by (intros; repeat split; apply omap_app).
    destruct (match dv with None => true | Some x => d + c <? x end) eqn:Eb.
    - destruct (vset dis v (Some (d + c))) as [dis1| |] eqn:Es; cbn [mbind res_bind] in *; try discriminate. injection E as <- <-.
      unfold vset in Es. case_decide as Hlv; [|discriminate]. injection Es as <-.
      assert (Hnew : forall x, (x, v) ∈ dj_pushes w -> d + c < x).
      { intros x Hx. destruct (W3 _ _ Hx) as (d' & Hd' & Hle). rewrite Hd' in Edv. injection Edv as <-. apply Z.ltb_lt in Eb. lia. }
      eexists _, _, _. split; [reflexivity|]. split; [exact J'|].
      destruct (Hsplit w (DjEdge u v c)) as (S1 & S2 & S3 & S4). destruct (Hsplit (w ++ [DjEdge u v c]) (DjPush (d + c) v)) as (T1 & T2 & T3 & T4).
      rewrite S1 in T1. rewrite S2 in T2. rewrite S3 in T3. rewrite S4 in T4. cbn in T1, T2, T3, T4. repeat match goal with H : context [_ ++ []] |- _ => rewrite app_nil_r in H end.
      split; [|rewrite T3, T4; repeat split; exact Hl]. split; rewrite ?T1, ?T2, ?T4.
      + rewrite (bag_push B content HB). rewrite W1. rewrite <- app_assoc, <- (Permutation_cons_append (bag q) (d + c, v)). reflexivity.
      + apply NoDup_app. split; [exact W2|]. split; [|apply NoDup_singleton]. intros x Hx ->%elem_of_list_singleton. apply Hnew in Hx. lia.
      + intros x y [Hx|Hx]%elem_of_app.
        * destruct (W3 _ _ Hx) as (d' & Hd' & Hle). destruct (decide (y = v)) as [->|Hne].
          -- exists (d + c). split; [apply list_lookup_insert; exact Hlv|]. apply Hnew in Hx. lia.
          -- exists d'. rewrite list_lookup_insert_ne by congruence. auto.
        * apply elem_of_list_singleton in Hx as [= -> ->]. exists (d + c). split; [apply list_lookup_insert; exact Hlv|lia].
      + rewrite !app_length. cbn [length]. lia.
      + exact W5.
      + exact W6.
      + intros y Hy. rewrite (bag_push B content HB) in Hy. apply elem_of_cons in Hy as [->|Hy]; [cbn; lia|apply W7, Hy].
    - injection E as <- <-. eexists _, _, _. split; [reflexivity|]. split; [exact J'|].
      destruct (Hsplit w (DjEdge u v c)) as (S1 & S2 & S3 & S4). cbn in S1, S2, S3, S4. repeat match goal with H : context [_ ++ []] |- _ => rewrite app_nil_r in H end.
      split; [|rewrite S3, S4; repeat split; exact Hl]. split; rewrite ?S1, ?S2, ?S4; try assumption. rewrite app_length. cbn [length]. lia.
  Qed.

  Lemma dijkstra_log_ok : ~ bad g s -> exists dis w, dijkstra_log B g s = Ok (dis, w) /\ result g s dis /\
    (forall d u, (d, u) ∈ dj_scans w <-> shortest g s u d) /\ NoDup (dj_scans w).*2 /\ StronglySorted Z.le (dj_scans w).*1 /\
    dj_edges w = concat (edges_of g <$> (dj_scans w).*2) /\
    dj_pops w ≡ₚ dj_pushes w /\ NoDup (dj_pushes w) /\ StronglySorted Z.le (dj_pops w).*1 /\ (length (dj_pushes w) <= 1 + length (dj_edges w))%nat.
  Proof.
    intros Hok. unfold dijkstra_log. rewrite vset_ok by (rewrite replicate_length; exact Hs). cbn [mbind res_bind].
    assert (Hsplit : forall w x, dj_pushes (w ++ [x]) = dj_pushes w ++ dj_pushes [x] /\ dj_pops (w ++ [x]) = dj_pops w ++ dj_pops [x] /\
      dj_scans (w ++ [x]) = dj_scans w ++ dj_scans [x] /\ dj_edges (w ++ [x]) = dj_edges w ++ dj_edges [x]) by (intros; repeat split; apply omap_app).
    destruct (rloop_inv_p (fun m '(dis, q, w) => exists P d, inv B content g s P dis q /\ winv d dis q w /\ sinv d P w /\
        dj_edges w = concat (edges_of g <$> (dj_scans w).*2) /\ m = (length (bag q) + open_deg g P)%nat)
      (fun x => result g s x.1 /\
        (forall d u, (d, u) ∈ dj_scans x.2 <-> shortest g s u d) /\ NoDup (dj_scans x.2).*2 /\ StronglySorted Z.le (dj_scans x.2).*1 /\
        dj_edges x.2 = concat (edges_of g <$> (dj_scans x.2).*2) /\
        dj_pops x.2 ≡ₚ dj_pushes x.2 /\ NoDup (dj_pushes x.2) /\ StronglySorted Z.le (dj_pops x.2).*1 /\
        (length (dj_pushes x.2) <= 1 + length (dj_edges x.2))%nat)
      False (dijkstra_step_log B g)) with (fuel := (length (concat g) + 2)%nat) (m := (1 + open_deg g [])%nat)
      (s := (<[s:=Some 0]> (replicate (length g) None), mh_push B (mh_new B) (0, s), [DjPush 0 s])) as [[_ []]|([dis w] & E & Q)].
    - intros m [[dis q] w] (P & d0 & H & W & Sc & He & Hm). right. unfold dijkstra_step_log.
      pose proof (turn B content HB g s Hg Hs _ _ _ H) as Ht. destruct (mh_pop B q) as [[[d u]|] q'].
      2:{ exists (inr (dis, w)). split; [reflexivity|]. cbn [fst snd].
        split; [apply (inv_final B content g s Hg Hs P dis q H Ht)|].
        split. { intros d u. split; [apply (s_short _ _ _ Sc)|]. intros Hsh.
          destruct (inv_walk B content g s Hg Hs P dis q H u d (proj1 Hsh)) as [[HP _]|(d' & x & Hx & _)]; [|rewrite Ht in Hx; inversion Hx].
          assert (Hu : u ∈ (dj_scans w).*2) by (rewrite (s_scans _ _ _ Sc), <- Permutation_rev; exact HP).
          apply elem_of_list_fmap in Hu as ([d' u'] & -> & Hin). cbn [snd] in *. pose proof (s_short _ _ _ Sc _ _ Hin) as [Hw' Hmin']. destruct Hsh as [Hw Hmin].
          replace d with d'; [exact Hin|]. specialize (Hmin' _ Hw). specialize (Hmin _ Hw'). lia. }
        split; [rewrite (s_scans _ _ _ Sc), <- Permutation_rev; apply (s_nodup _ _ _ Sc)|]. split; [apply (s_sorted _ _ _ Sc)|]. split; [exact He|].
        destruct W as [W1 W2 W3 W4 W5 W6 W7]. rewrite Ht, app_nil_r in W1. split; [symmetry; exact W1|]. repeat split; assumption. }
      destruct Ht as (Hperm & Hmin & d' & Hd' & Hstale & Hsettle). rewrite (vget_ok _ _ _ Hd'). cbn [mbind res_bind].
      assert (Hlen : length (bag q) = S (length (bag q'))) by (rewrite Hperm; reflexivity).
      assert (Hdd : d0 <= d) by (change d with ((d, u).1); apply (w_min _ _ _ _ W); rewrite Hperm; left).
      destruct (Hsplit w (DjPop d u)) as (S1 & S2 & S3 & S4). cbn in S1, S2, S3, S4. repeat match goal with H : context [_ ++ []] |- _ => rewrite app_nil_r in H end.
      assert (W' : winv d dis q' (w ++ [DjPop d u])).
      { destruct W as [W1 W2 W3 W4 W5 W6 W7]. split; rewrite ?S1, ?S2, ?S4; try assumption.
        - rewrite W1, Hperm, <- app_assoc. reflexivity.
        - rewrite fmap_app. apply sorted_snoc; [exact W5|]. eapply Forall_impl; [exact W6|]. intros; cbn in *; lia.
        - rewrite fmap_app. apply Forall_app. split; [eapply Forall_impl; [exact W6|]; intros; cbn in *; lia|]. constructor; [cbn; lia|constructor].
        - intros y Hy. apply Hmin. rewrite Hperm. right. exact Hy. }
      assert (Hmono : Forall (fun y => y <= d) (dj_scans w).*1) by (eapply Forall_impl; [exact (s_last _ _ _ Sc)|]; intros; cbn in *; lia).
      destruct (decide (Some d = Some d')) as [[= <-]|Hne].
      2:{ exists (inl (dis, q', w ++ [DjPop d u])). split; [reflexivity|]. exists (length (bag q') + open_deg g P)%nat. split; [lia|]. exists P, d.
        split; [apply Hstale; congruence|]. split; [exact W'|]. split; [|split; [rewrite S3, S4; exact He|reflexivity]].
        destruct Sc as [C1 C2 C3 C4 C5]. split; rewrite ?S3; assumption. }
      destruct (Hsettle eq_refl) as (HuP & Hshort & es & Hes & J0 & Hnext). rewrite (vget_ok _ _ _ Hes). cbn [mbind res_bind].
      destruct (Hsplit (w ++ [DjPop d u]) (DjScan d u)) as (T1 & T2 & T3 & T4). rewrite S1 in T1. rewrite S2 in T2. rewrite S3 in T3. rewrite S4 in T4.
      cbn in T1, T2, T3, T4. repeat match goal with H : context [_ ++ []] |- _ => rewrite app_nil_r in H end.
      destruct (rfor_inv (fun done '(dis1, q1, w1) => inv2 B content g s P d u done dis1 q1 /\ winv d dis1 q1 w1 /\
          dj_scans w1 = dj_scans w ++ [(d, u)] /\ dj_edges w1 = dj_edges w ++ (pair u <$> done) /\ (length (bag q1) <= length (bag q') + length done)%nat)
        es (relax_log B d u) (dis, q', (w ++ [DjPop d u]) ++ [DjScan d u])) as ([[dis1 q1] w1] & E1 & J & W1 & Es & Ee & Hlen1).
      { split; [exact J0|]. split; [|split; [exact T3|split; [cbn [fmap list_fmap]; rewrite app_nil_r; exact T4|cbn; lia]]].
        destruct W' as [W1 W2 W3 W4 W5 W6 W7]. split; rewrite ?T1, ?T2, ?T4; rewrite ?S1, ?S2, ?S4 in *; assumption. }
      { intros done [v c] rest [[dis1 q1] w1] Hd (J & W1 & Es & Ee & Hl). assert (Hc : (v, c) ∈ es) by (rewrite Hd; apply elem_of_app; right; left).
        assert (Hb : ~ ((length g <= v)%nat \/ 2 ^ 64 - 1 < d + c)) by (intros Hb; apply Hok; exists u, d, es, v, c; auto).
        destruct (relax_log_ok P d u es done v c dis1 q1 w1 J W1 Hes Hc) as (dis2 & q2 & w2 & E2 & J2 & W2 & Es2 & Ee2 & Hl2); [lia..|].
        exists (dis2, q2, w2). split; [exact E2|]. split; [exact J2|]. split; [exact W2|]. split; [congruence|].
        split; [rewrite Ee2, Ee, fmap_app, <- app_assoc; reflexivity|]. rewrite app_length. cbn [length]. lia. }
      rewrite E1. cbn [mbind res_bind]. exists (inl (dis1, q1, w1)). split; [reflexivity|].
      pose proof (open_deg_cons g P u es Hes HuP) as Hdeg.
      exists (length (bag q1) + open_deg g (u :: P))%nat. split; [lia|]. exists (u :: P), d. split; [apply Hnext, J|]. split; [exact W1|].
      split; [|split; [|reflexivity]].
      + destruct Sc as [C1 C2 C3 C4 C5]. split; rewrite ?Es, ?fmap_app.
        * rewrite C1. reflexivity.
        * constructor; assumption.
        * intros dx x [Hx|[= -> ->]%elem_of_list_singleton]%elem_of_app; [apply C3, Hx|exact Hshort].
        * apply sorted_snoc; assumption.
        * apply Forall_app. split; [exact Hmono|]. constructor; [cbn; lia|constructor].
      + rewrite Es, Ee, !fmap_app, concat_app, <- He. f_equal. cbn. rewrite app_nil_r. unfold edges_of. rewrite Hes. reflexivity.
    - exists [], 0. split; [apply (inv_start B content HB g s Hs)|]. split; [|split; [|split; [reflexivity|rewrite (bag_start B content HB); reflexivity]]].
      + split; cbn.
        * rewrite (bag_start B content HB). reflexivity.
        * apply NoDup_singleton.
        * intros d v Hin. apply elem_of_list_singleton in Hin as [= -> ->]. exists 0. split; [apply list_lookup_insert; rewrite replicate_length; exact Hs|lia].
        * lia.
        * constructor.
        * constructor.
        * intros y Hy. rewrite (bag_start B content HB) in Hy. apply elem_of_list_singleton in Hy as ->. cbn. lia.
      + split; cbn; [reflexivity|constructor| |constructor|constructor]. intros d u Hin. inversion Hin.
    - rewrite open_deg_nil. lia.
    - exists dis, w. split; [exact E|exact Q].
  Qed.

  (** The edges read are at most the edges there are. *)
  Lemma edges_le (l : list nat) : NoDup l -> (length (concat (edges_of g <$> l)) <= length (concat g))%nat.
  Proof.
    rewrite <- (open_deg_nil g). intros Hl.
    assert (H : forall l P, NoDup l -> (forall u, u ∈ l -> u ∉ P) -> (length (concat (edges_of g <$> l)) + open_deg g (rev l ++ P) <= open_deg g P)%nat).
    { clear l Hl. induction l as [|u l IH]; intros P Hn Hd; [cbn; lia|]. apply NoDup_cons in Hn as [Hu Hn]. cbn [fmap list_fmap concat rev]. rewrite app_length, <- app_assoc. cbn [app].
      specialize (IH (u :: P) Hn). destruct (g !! u) as [es|] eqn:E.
      - pose proof (open_deg_cons g P u es E (Hd u ltac:(left))) as Ho. unfold edges_of at 1. rewrite E. cbn [default from_option id]. rewrite fmap_length.
        assert (Hd' : forall v, v ∈ l -> v ∉ u :: P) by (intros v Hv [->|Hv']%elem_of_cons; [contradiction|apply (Hd v); [right; exact Hv|exact Hv']]).
        specialize (IH Hd'). unfold fmap in *. lia.
      - unfold edges_of at 1. rewrite E. cbn [default from_option id fmap list_fmap length].
        assert (Hd' : forall v, v ∈ l -> v ∉ u :: P) by (intros v Hv [->|Hv']%elem_of_cons; [contradiction|apply (Hd v); [right; exact Hv|exact Hv']]).
        specialize (IH Hd'). assert (open_deg g (u :: P) <= open_deg g P)%nat; [|unfold fmap in *; lia].
        unfold open_deg. apply Nat.eq_le_incl, sum_list_with_ext. intros x _. destruct (decide (x ∈ P)) as [Hx|Hx].
        + rewrite decide_True by (right; exact Hx). reflexivity.
        + destruct (decide (x = u)) as [->|Hxu]; [rewrite decide_True by left; rewrite E; reflexivity|]. rewrite decide_False; [reflexivity|]. rewrite elem_of_cons. naive_solver. }
    specialize (H l [] Hl ltac:(intros u _ Hu; inversion Hu)). lia.
  Qed.
End Proof.
Close Scope Z_scope.
