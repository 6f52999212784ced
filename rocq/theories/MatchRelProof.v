From Verif Require Import Prelude ArraySpec MatchingModel MatchingSpec MatchingProof MatchingProps MatchRelModel MatchRelSpec.

Lemma max_unique E k k' : max_matching_size E k -> max_matching_size E k' -> k = k'.
Proof. intros [(M & H1 & H2) H3] [(M' & H1' & H2') H3']. specialize (H3 M' H1'). specialize (H3' M H1). lia. Qed.
Lemma edges_of_map E : edges_of (map (fun e => BmEdge e.1 e.2) E) = E.
Proof. induction E as [|[u v] E IH]; [reflexivity|]. cbn. f_equal. exact IH. Qed.
Lemma spec_edges n m E : forall E0 outs, bm_spec n m E0 (map (fun e => BmEdge e.1 e.2) E ++ [BmSolve]) outs -> exists k, outs = map (fun _ => None) E ++ [Some k] /\ max_matching_size (E0 ++ E) k.
Proof.
  induction E as [|[u v] E IH]; intros E0 outs H; cbn [map app] in *.
  - inversion H; subst. match goal with H : bm_spec _ _ _ [] _ |- _ => inversion H; subst end. rewrite app_nil_r. eauto.
  - inversion H; subst. match goal with H : bm_spec _ _ _ _ _ |- _ => apply IH in H as (k & -> & Hk) end. exists k. split; [reflexivity|]. rewrite <- app_assoc in Hk. exact Hk.
Qed.
Lemma run_app {St Op Out} (step : St -> Op -> res (St * Out)) ops1 : forall s ops2, run step s (ops1 ++ ops2) = (x ← run step s ops1; y ← run step x.1 ops2; Ok (y.1, x.2 ++ y.2)).
Proof.
  induction ops1 as [|o ops1 IH]; intros s ops2; cbn [run app].
  - cbn [mbind res_bind fst snd app]. destruct (run step s ops2) as [[? ?]| |]; reflexivity.
  - destruct (step s o) as [[s1 out]| |]; [|reflexivity|reflexivity]. cbn [mbind res_bind]. rewrite IH. destruct (run step s1 ops1) as [[s2 outs]| |]; [|reflexivity|reflexivity]. cbn [mbind res_bind fst snd].
    destruct (run step s2 ops2) as [[s3 outs']| |]; reflexivity.
Qed.
Lemma match_size_iff n m E k : fits n m E -> match_size n m E = Ok k <-> max_matching_size E k.
Proof.
  intros HE. assert (exists k, match_size n m E = Ok k /\ max_matching_size E k) as (k0 & E0 & K0).
  { destruct (C23_matching n m (map (fun e => BmEdge e.1 e.2) E ++ [BmSolve])) as (b & outs & Er & Hs).
    { apply Forall_app. split; [|repeat constructor]. apply Forall_map, Forall_forall. intros [u v] Hin. apply HE. exact Hin. }
    apply spec_edges in Hs as (k0 & -> & Hk). exists k0. split; [|exact Hk]. unfold match_size. rewrite run_app in Er.
    destruct (run bm_step (bm_new n m) _) as [[b1 outs1]| |]; [|discriminate|discriminate]. cbn [mbind res_bind fst snd run bm_step] in *.
    destruct (bm_solve b1) as [[b2 k1]| |]; [|discriminate|discriminate]. cbn [mbind res_bind fst snd] in *. injection Er as _ Eo. apply app_inj_tail in Eo as [_ [= ->]]. reflexivity. }
  rewrite E0. split; [intros [= <-]; exact K0|]. intros K. f_equal. exact (max_unique _ _ _ K0 K).
Qed.
Lemma match_size_ok n m E : fits n m E -> exists k, match_size n m E = Ok k /\ max_matching_size E k.
Proof.
  intros HE. destruct (C23_matching n m (map (fun e => BmEdge e.1 e.2) E ++ [BmSolve])) as (b & outs & Er & Hs).
  { apply Forall_app. split; [|repeat constructor]. apply Forall_map, Forall_forall. intros [u v] Hin. apply HE. exact Hin. }
  apply spec_edges in Hs as (k0 & -> & Hk). exists k0. split; [|exact Hk]. apply match_size_iff; assumption.
Qed.

(** *** Matchings of related graphs *)
Lemma matching_mono E E' M : (forall e, e ∈ E -> e ∈ E') -> matching E M -> matching E' M.
Proof. intros H (A & B & C). split; [auto|]. auto. Qed.
Lemma max_mono E E' k k' : (forall e, e ∈ E -> e ∈ E') -> max_matching_size E k -> max_matching_size E' k' -> k <= k'.
Proof. intros H [(M & HM & <-) _] [_ H']. apply H'. exact (matching_mono _ _ _ H HM). Qed.
Lemma nodup_filter_map {A B} (f : A -> B) (P : A -> bool) (l : list A) : NoDup (map f l) -> NoDup (map f (List.filter P l)).
Proof.
  induction l as [|x l IH]; intros H; [constructor|]. cbn in *. apply NoDup_cons in H as [H1 H2]. destruct (P x); [|auto]. cbn. apply NoDup_cons. split; [|auto].
  intros Hin. apply H1. apply elem_of_list_In, in_map_iff in Hin as (y & E & Hy). apply filter_In in Hy as [Hy _]. apply elem_of_list_In, in_map_iff. eauto.
Qed.
Lemma matching_filter E E' M (P : nat * nat -> bool) : matching E M -> (forall e, e ∈ E -> P e = true -> e ∈ E') -> matching E' (List.filter P M).
Proof.
  intros (A & B & C) H. split; [|split; apply nodup_filter_map; assumption]. intros e He. apply elem_of_list_In, filter_In in He as [He1 He2]. apply H; [apply A, elem_of_list_In; exact He1|exact He2].
Qed.
Lemma filter_split {A} (P : A -> bool) (l : list A) : length l = length (List.filter P l) + length (List.filter (fun x => negb (P x)) l).
Proof. induction l as [|x l IH]; [reflexivity|]. cbn. destruct (P x); cbn; lia. Qed.
Lemma max_app E E' k k' s : max_matching_size E k -> max_matching_size E' k' -> max_matching_size (E ++ E') s -> s <= k + k'.
Proof.
  intros [_ H] [_ H'] [(M & HM & <-) _]. rewrite (filter_split (fun e => bool_decide (e ∈ E)) M). apply Nat.add_le_mono; [apply H|apply H']; eapply matching_filter; try exact HM.
  - intros e _ He. apply bool_decide_eq_true in He. exact He.
  - intros e He Hn. apply negb_true_iff, bool_decide_eq_false in Hn. apply elem_of_app in He as [He|He]; [contradiction|exact He].
Qed.
(** A star on either side *)
Lemma star_left E u k : (forall e, e ∈ E -> e.1 = u) -> max_matching_size E k -> k <= 1.
Proof.
  intros H [(M & (A & B & _) & <-) _]. destruct M as [|e1 [|e2 M]]; cbn [length]; [lia|lia|]. exfalso. cbn in B. apply NoDup_cons in B as [B _]. apply B.
  rewrite (H e1), (H e2) by (apply A; [left || (right; left)]). left.
Qed.
Lemma star_right E v k : (forall e, e ∈ E -> e.2 = v) -> max_matching_size E k -> k <= 1.
Proof.
  intros H [(M & (A & _ & B) & <-) _]. destruct M as [|e1 [|e2 M]]; cbn [length]; [lia|lia|]. exfalso. cbn in B. apply NoDup_cons in B as [B _]. apply B.
  rewrite (H e1), (H e2) by (apply A; [left || (right; left)]). left.
Qed.
Lemma pull_back {A B} (h : A -> B) (E : list A) (M : list B) : (forall e, e ∈ M -> e ∈ map h E) -> exists M', M = map h M' /\ forall e, e ∈ M' -> e ∈ E.
Proof.
  induction M as [|e M IH]; intros H; [exists []; split; [reflexivity|intros e He; inversion He]|].
  destruct IH as (M' & -> & H'); [intros e' He'; apply H; right; exact He'|]. assert (He : e ∈ map h E) by (apply H; left). apply elem_of_list_In, in_map_iff in He as (x & <- & Hx).
  exists (x :: M'). split; [reflexivity|]. intros y [->|Hy]%elem_of_cons; [apply elem_of_list_In; exact Hx|auto].
Qed.
Lemma nodup_map_inv {A B} (f : A -> B) l : NoDup (map f l) -> NoDup l.
Proof. induction l as [|x l IH]; intros H; [constructor|]. cbn in H. apply NoDup_cons in H as [H1 H2]. apply NoDup_cons. split; [|auto]. intros Hin. apply H1. apply elem_of_list_In, in_map, elem_of_list_In. exact Hin. Qed.
Lemma nodup_map_inj {A B} (f : A -> B) l : (forall x y, x ∈ l -> y ∈ l -> f x = f y -> x = y) -> NoDup l -> NoDup (map f l).
Proof.
  induction l as [|x l IH]; intros Hi H; [constructor|]. apply NoDup_cons in H as [H1 H2]. cbn. apply NoDup_cons. split.
  - intros Hin. apply elem_of_list_In, in_map_iff in Hin as (y & E & Hy). apply elem_of_list_In in Hy. assert (y = x) as -> by (apply Hi; [right; exact Hy|left|exact E]). contradiction.
  - apply IH; [|exact H2]. intros a b Ha Hb. apply Hi; right; assumption.
Qed.
Lemma max_renamed f g E k k' : max_matching_size E k -> max_matching_size (renamed f g E) k' -> k' <= k.
Proof.
  intros [_ H] [(M & (A & B & C) & <-) _]. destruct (pull_back _ E M A) as (M' & -> & HM'). rewrite map_length. apply H. split; [exact HM'|].
  change (NoDup (map fst (map (fun e => (f e.1, g e.2)) M'))) in B. change (NoDup (map snd (map (fun e => (f e.1, g e.2)) M'))) in C. change (NoDup (map fst M') /\ NoDup (map snd M')). rewrite map_map in B, C. cbn [fst snd] in B, C.
  split; [apply (nodup_map_inv f); rewrite map_map; exact B|apply (nodup_map_inv g); rewrite map_map; exact C].
Qed.
Lemma max_renamed_inj f g E k k' : (forall e e', e ∈ E -> e' ∈ E -> f e.1 = f e'.1 -> e.1 = e'.1) -> (forall e e', e ∈ E -> e' ∈ E -> g e.2 = g e'.2 -> e.2 = e'.2) ->
  max_matching_size E k -> max_matching_size (renamed f g E) k' -> k' = k.
Proof.
  intros Hf Hg HE HR. apply Nat.le_antisymm; [eapply max_renamed; eauto|]. destruct HE as [(M & (A & B & C) & <-) _], HR as [_ H].
  rewrite <- (map_length (fun e => (f e.1, g e.2)) M). apply H. split.
  - intros e He. apply elem_of_list_In, in_map_iff in He as (x & <- & Hx). apply elem_of_list_In, (in_map (fun e => (f e.1, g e.2))), elem_of_list_In, A, elem_of_list_In. exact Hx.
  - change (NoDup (map fst (map (fun e => (f e.1, g e.2)) M)) /\ NoDup (map snd (map (fun e => (f e.1, g e.2)) M))). rewrite !map_map. cbn [fst snd]. change (NoDup (map fst M)) in B. change (NoDup (map snd M)) in C.
    rewrite <- (map_map fst f M), <- (map_map snd g M). split; apply nodup_map_inj; try assumption; intros x y Hx Hy.
    + apply elem_of_list_In, in_map_iff in Hx as (e & <- & He). apply elem_of_list_In, in_map_iff in Hy as (e' & <- & He'). apply elem_of_list_In in He, He'. apply Hf; apply A; assumption.
    + apply elem_of_list_In, in_map_iff in Hx as (e & <- & He). apply elem_of_list_In, in_map_iff in Hy as (e' & <- & He'). apply elem_of_list_In in He, He'. apply Hg; apply A; assumption.
Qed.
Lemma max_swapped E k : max_matching_size E k -> max_matching_size (swapped E) k.
Proof.
  assert (S : forall E M, matching E M -> matching (swapped E) (swapped M)).
  { intros E0 M (A & B & C). split.
    - intros e He. apply elem_of_list_In, in_map_iff in He as (x & <- & Hx). apply elem_of_list_In, (in_map (fun e => (e.2, e.1))), elem_of_list_In, A, elem_of_list_In. exact Hx.
    - change (NoDup (map fst (swapped M)) /\ NoDup (map snd (swapped M))). unfold swapped. rewrite !map_map. cbn [fst snd]. split; assumption. }
  assert (I : forall E, swapped (swapped E) = E). { intros E0. unfold swapped. rewrite map_map. rewrite <- (map_id E0) at 2. apply map_ext. intros [? ?]. reflexivity. }
  intros [(M & HM & <-) H]. split.
  - exists (swapped M). split; [apply S; exact HM|apply map_length].
  - intros M' HM'. apply S in HM'. rewrite I in HM'. apply H in HM'. unfold swapped in HM'. rewrite map_length in HM'. exact HM'.
Qed.
Lemma max_union E E' k k' s : (forall e e', e ∈ E -> e' ∈ E' -> e.1 <> e'.1 /\ e.2 <> e'.2) -> max_matching_size E k -> max_matching_size E' k' -> max_matching_size (E ++ E') s -> s = k + k'.
Proof.
  intros Hd HE HE' HS. apply Nat.le_antisymm; [eapply max_app; eauto|]. destruct HE as [(M & (A & B & C) & <-) _], HE' as [(M' & (A' & B' & C') & <-) _], HS as [_ H]. rewrite <- app_length. apply H.
  split; [intros e [He|He]%elem_of_app; apply elem_of_app; auto|]. change (NoDup (map fst (M ++ M')) /\ NoDup (map snd (M ++ M'))). rewrite !map_app.
  split; apply NoDup_app; (split; [assumption|]); (split; [|assumption]); intros x Hx Hx'; apply elem_of_list_In, in_map_iff in Hx as (e & <- & He); apply elem_of_list_In, in_map_iff in Hx' as (e' & E1 & He'); apply elem_of_list_In in He, He'; destruct (Hd e e' (A e He) (A' e' He')); congruence.
Qed.

(** *** What solve does to the stored matching *)
Lemma stays_refl {A} (l : list (option A)) : stays l l.
Proof. intros u x H. eauto. Qed.
Lemma stays_trans {A} (l1 l2 l3 : list (option A)) : stays l1 l2 -> stays l2 l3 -> stays l1 l3.
Proof. intros H1 H2 u x H. apply H1 in H as [y H]. eauto. Qed.
Lemma vset_inv {A} (v : list A) i x w : vset v i x = Ok w -> i < length v /\ w = <[i:=x]> v.
Proof. intros H. destruct (decide (i < length v)) as [L|L]; [|rewrite vset_panic in H by lia; discriminate]. rewrite vset_ok in H by exact L. injection H as <-. auto. Qed.
Lemma stays_set {A} (l l' : list (option A)) u x : vset l u (Some x) = Ok l' -> stays l l'.
Proof. intros [L ->]%vset_inv w y H. destruct (decide (w = u)) as [->|Hne]; [exists x; apply list_lookup_insert; exact L|]. exists y. rewrite list_lookup_insert_ne by auto. exact H. Qed.
(** both sides stay, vis keeps its length, and without success nothing changes *)
Definition kept (st : mst) (x : bool * mst) : Prop :=
  stays st.1.2 x.2.1.2 /\ stays st.2 x.2.2 /\ length x.2.1.1 = length st.1.1 /\ length x.2.1.2 = length st.1.2 /\ (x.1 = false -> x.2.1.2 = st.1.2 /\ x.2.2 = st.2).
Lemma kept_trans st b st1 x : kept st (b, st1) -> b = false -> kept st1 x -> kept st x.
Proof.
  intros (A1 & A2 & A3 & A4 & A5) -> (B1 & B2 & B3 & B4 & B5). cbn [fst snd] in *. destruct (A5 eq_refl) as [E1 E2]. split_and!; [eapply stays_trans; eauto|eapply stays_trans; eauto|congruence|congruence|].
  intros F. destruct (B5 F) as [F1 F2]. split; congruence.
Qed.
Lemma take_edge_kept u v st x : take_edge u v st = Ok x -> x.1 = true /\ kept st x.
Proof.
  destruct st as [[vis l] r]. unfold take_edge. destruct (vset l u (Some v)) as [l'| |] eqn:E1; try discriminate. cbn [mbind res_bind]. destruct (vset r v (Some u)) as [r'| |] eqn:E2; try discriminate. cbn [mbind res_bind].
  intros [= <-]. split; [reflexivity|]. split_and!; cbn [fst snd]; [eapply stays_set; eauto|eapply stays_set; eauto|reflexivity| |discriminate]. apply vset_inv in E1 as [_ ->]. apply insert_length.
Qed.
Lemma take_after u v b st st1 x : kept st (b, st1) -> take_edge u v st1 = Ok x -> kept st x.
Proof.
  intros (A1 & A2 & A3 & A4 & A5) H. apply take_edge_kept in H as [T (B1 & B2 & B3 & B4 & B5)]. cbn [fst snd] in *. split_and!; [eapply stays_trans; eauto|eapply stays_trans; eauto|congruence|congruence|]. congruence.
Qed.
Lemma try_edges_kept rec u es : (forall w st x, rec w st = Ok x -> kept st x) -> forall st x, try_edges rec u es st = Ok x -> kept st x.
Proof.
  intros Hrec. induction es as [|v es IH]; intros st x H; cbn [try_edges] in H.
  - injection H as <-. split_and!; cbn [fst snd]; auto using stays_refl.
  - destruct (vget st.2 v) as [rv| |]; try discriminate. cbn [mbind res_bind] in H. destruct (runwrap rv) as [w| |]; try discriminate. cbn [mbind res_bind] in H.
    destruct (rec w st) as [[b st1]| |] eqn:Er; try discriminate. cbn [mbind res_bind fst snd] in H. apply Hrec in Er. destruct b.
    + eapply take_after; eauto.
    + eapply kept_trans; [exact Er|reflexivity|]. apply IH. exact H.
Qed.
Lemma mdfs_kept fuel g : forall u st x, mdfs fuel g u st = Ok x -> kept st x.
Proof.
  induction fuel as [|fuel IH]; intros u [[vis l] r] x H; cbn [mdfs] in H; [discriminate|]. destruct (vget vis u) as [bv| |]; try discriminate. cbn [mbind res_bind] in H. destruct bv.
  { injection H as <-. split_and!; cbn [fst snd]; auto using stays_refl. }
  destruct (vset vis u true) as [vis'| |] eqn:Ev; try discriminate. cbn [mbind res_bind] in H. destruct (vget g u) as [es| |]; try discriminate. cbn [mbind res_bind] in H. destruct (find_free r es) as [f| |]; try discriminate. cbn [mbind res_bind] in H.
  assert (kept (vis', l, r) x -> kept (vis, l, r) x) as K.
  { intros (A1 & A2 & A3 & A4 & A5). cbn [fst snd] in *. split_and!; auto. cbn [fst snd]. rewrite A3. apply vset_inv in Ev as [_ ->]. apply insert_length. }
  apply K. destruct f as [v|]; [apply take_edge_kept in H as [_ H]; exact H|]. eapply try_edges_kept; [exact IH|exact H].
Qed.
Definition rkept (s x : bool * mst) : Prop :=
  stays s.2.1.2 x.2.1.2 /\ stays s.2.2 x.2.2 /\ length x.2.1.1 = length s.2.1.1 /\ length x.2.1.2 = length s.2.1.2 /\ (x.1 = false -> s.1 = false /\ x.2.1.2 = s.2.1.2 /\ x.2.2 = s.2.2).
Lemma round_body_kept g i s x : round_body g i s = Ok x -> rkept s x.
Proof.
  destruct s as [ok [[vis l] r]]. unfold round_body. destruct (vget l i) as [li| |]; try discriminate. cbn [mbind res_bind]. destruct li as [v|].
  { intros [= <-]. split_and!; cbn [fst snd]; auto using stays_refl. }
  destruct (mdfs (S (length vis)) g i (vis, l, r)) as [[b st]| |] eqn:E; try discriminate. cbn [mbind res_bind fst snd]. intros [= <-]. apply mdfs_kept in E as (A1 & A2 & A3 & A4 & A5). cbn [fst snd] in *.
  split_and!; cbn [fst snd]; auto. intros [F1 F2]%orb_false_iff. destruct (A5 F2). auto.
Qed.
Lemma round_kept g is : forall s x, rfor is (round_body g) s = Ok x -> rkept s x.
Proof.
  induction is as [|i is IH]; intros s x H; cbn [rfor] in H.
  - injection H as <-. split_and!; auto using stays_refl.
  - destruct (round_body g i s) as [s1| |] eqn:E; try discriminate. cbn [mbind res_bind] in H. apply round_body_kept in E as (A1 & A2 & A3 & A4 & A5). apply IH in H as (B1 & B2 & B3 & B4 & B5).
    split_and!; [eapply stays_trans; eauto|eapply stays_trans; eauto|congruence|congruence|]. intros F. destruct (B5 F) as (F1 & F2 & F3). destruct (A5 F1) as (G1 & G2 & G3). split_and!; congruence.
Qed.
(** The last round starts from the state it leaves, but for vis. *)
Lemma rloop_solve g fuel : forall s x, rloop fuel (solve_step g) s = Ok x -> stays s.1.2 x.1.2 /\ stays s.2 x.2 /\ length x.1.2 = length s.1.2 /\ solve_step g x = Ok (inr x).
Proof.
  induction fuel as [|fuel IH]; intros [[vis l] r] x H; cbn [rloop] in H; [discriminate|]. destruct (solve_step g (vis, l, r)) as [o| |] eqn:Es; try discriminate. cbn [mbind res_bind] in H.
  pose proof Es as Es0. unfold solve_step in Es. destruct (rfor (range 0 (length l)) (round_body g) (false, (replicate (length vis) false, l, r))) as [[ok st]| |] eqn:Er; try discriminate. cbn [mbind res_bind fst snd] in Es.
  apply round_kept in Er as K. destruct K as (A1 & A2 & A3 & A4 & A5). cbn [fst snd] in *. rewrite replicate_length in A3. destruct ok; injection Es as <-.
  - apply IH in H as (B1 & B2 & B3 & B4). split_and!; [eapply stays_trans; eauto|eapply stays_trans; eauto|congruence|exact B4].
  - injection H as <-. split_and!; auto. destruct (A5 eq_refl) as (_ & E1 & E2). destruct st as [[vis' l'] r']. cbn [fst snd] in *. subst l' r'. unfold solve_step. rewrite A3, Er. reflexivity.
Qed.
Lemma solve_stays b b' k : bm_solve b = Ok (b', k) -> stays (bm_l b) (bm_l b') /\ stays (bm_r b) (bm_r b') /\ bm_solve b' = Ok (b', k).
Proof.
  unfold bm_solve. destruct (rloop (S (length (bm_l b))) (solve_step (bm_g b)) (bm_vis b, bm_l b, bm_r b)) as [[[vis l] r]| |] eqn:E; try discriminate. cbn [mbind res_bind].
  destruct (rfor (range 0 (length l)) _ 0) as [ret| |] eqn:Ec; try discriminate. cbn [mbind res_bind]. intros [= <- <-]. cbn [bm_g bm_l bm_r bm_vis]. apply rloop_solve in E as (A1 & A2 & A3 & A4). cbn [fst snd] in *.
  split; [exact A1|]. split; [exact A2|]. cbn [rloop]. rewrite A4. cbn [mbind res_bind]. rewrite Ec. reflexivity.
Qed.
Lemma run_stays ops : forall b b' outs, run bm_step b ops = Ok (b', outs) -> stays (bm_l b) (bm_l b') /\ stays (bm_r b) (bm_r b').
Proof.
  induction ops as [|o ops IH]; intros b b' outs H; cbn [run] in H; [injection H as <- <-; auto using stays_refl|].
  destruct (bm_step b o) as [[b1 out]| |] eqn:E; try discriminate. cbn [mbind res_bind] in H. destruct (run bm_step b1 ops) as [[b2 outs2]| |] eqn:Er; try discriminate. cbn [mbind res_bind] in H. injection H as <- <-. apply IH in Er as [B1 B2].
  assert (stays (bm_l b) (bm_l b1) /\ stays (bm_r b) (bm_r b1)) as [A1 A2].
  { destruct o as [u v|]; cbn [bm_step] in E.
    - unfold bm_add_edge in E. destruct (vget (bm_g b) u) as [es| |]; try discriminate. cbn [mbind res_bind] in E. destruct (vset (bm_g b) u (es ++ [v])) as [g| |]; try discriminate. cbn [mbind res_bind] in E. injection E as <- <-. auto using stays_refl.
    - destruct (bm_solve b) as [[b0 k]| |] eqn:Eb; try discriminate. cbn [mbind res_bind fst snd] in E. injection E as <- <-. apply solve_stays in Eb as (A1 & A2 & _). auto. }
  split; eapply stays_trans; eauto.
Qed.
