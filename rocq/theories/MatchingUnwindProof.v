(** Proofs about bipartite matching after caught panics. *)
From Verif Require Import Prelude ArraySpec Unwind MatchingModel MatchingSpec MatchingProof MatchingUnwindModel MatchingUnwindSpec LazyUnwindCode LazyUnwindOps.

(** The code is that of MatchingModel.v. *)
Lemma strip_bm_add_edge u v b : strip (bmu_add_edge u v b) = (b ← bm_add_edge b u v; Ok (b, tt)).
Proof.
  unfold bmu_add_edge, bm_add_edge. rewrite strip_bind, strip_read. destruct (vget (bm_g b) u) as [es| |]; cbn [mbind res_bind]; [|reflexivity|reflexivity].
  rewrite strip_write. destruct (vset (bm_g b) u _); reflexivity.
Qed.
Lemma strip_take_edge u v st : strip (bmu_take_edge u v st) = (x ← take_edge u v st; Ok (x.2, x.1)).
Proof.
  unfold bmu_take_edge, take_edge. rewrite strip_bind, strip_write. destruct st as [[vis l] r].
  destruct (vset l u _) as [l'| |]; cbn [mbind res_bind]; [|reflexivity|reflexivity]. rewrite strip_bind, strip_write.
  destruct (vset r v _) as [r'| |]; reflexivity.
Qed.
Lemma strip_try_edges (rec : nat -> uw mst bool) recr : (forall w st, strip (rec w st) = (x ← recr w st; Ok (x.2, x.1))) ->
  forall u es st, strip (bmu_try_edges rec u es st) = (x ← try_edges recr u es st; Ok (x.2, x.1)).
Proof.
  intros H u es. induction es as [|v es IH]; intros st; [reflexivity|]. cbn [bmu_try_edges try_edges]. rewrite strip_bind, strip_read.
  destruct (vget st.2 v) as [rv| |]; cbn [mbind res_bind]; [|reflexivity|reflexivity]. destruct (runwrap rv) as [w| |]; cbn [mbind res_bind]; [|reflexivity|reflexivity].
  rewrite strip_bind, H. destruct (recr w st) as [[[] st']| |]; cbn [mbind res_bind fst snd]; [apply strip_take_edge|apply IH|reflexivity|reflexivity].
Qed.
Lemma strip_bm_dfs fuel g : forall u st, strip (bmu_dfs fuel g u st) = (x ← mdfs fuel g u st; Ok (x.2, x.1)).
Proof.
  induction fuel as [|fuel IH]; intros u [[vis l] r]; [reflexivity|]. cbn [bmu_dfs mdfs]. rewrite strip_bind, strip_read. cbn [fst snd].
  destruct (vget vis u) as [[]| |]; cbn [mbind res_bind]; [reflexivity| |reflexivity|reflexivity].
  rewrite strip_bind, strip_write. destruct (vset vis u true) as [vis1| |]; cbn [mbind res_bind]; [|reflexivity|reflexivity].
  rewrite strip_bind, strip_read. destruct (vget g u) as [es| |]; cbn [mbind res_bind]; [|reflexivity|reflexivity].
  rewrite strip_bind, strip_read. cbn [snd]. destruct (find_free r es) as [[v|]| |]; cbn [mbind res_bind]; [|apply strip_try_edges, IH|reflexivity|reflexivity].
  apply (strip_take_edge u v (vis1, l, r)).
Qed.
Lemma strip_round_body g i ok st : strip (bmu_round_body g i ok st) = (x ← round_body g i (ok, st); Ok (x.2, x.1)).
Proof.
  unfold bmu_round_body, round_body. destruct st as [[vis l] r]. rewrite strip_bind, strip_read. cbn [fst snd].
  destruct (vget l i) as [[y|]| |]; cbn [mbind res_bind]; [reflexivity| |reflexivity|reflexivity].
  rewrite strip_bind. cbn [fst]. rewrite strip_bm_dfs. destruct (mdfs _ g i _) as [[b st']| |]; reflexivity.
Qed.
Lemma strip_solve_step g st : strip (bmu_solve_step g tt st) =
  (x ← solve_step g st; Ok (match x with inl s => (s, inl tt) | inr s => (s, inr tt) end)).
Proof.
  unfold bmu_solve_step, solve_step. destruct st as [[vis l] r]. rewrite strip_bind, strip_write. cbn [mbind res_bind].
  rewrite strip_bind, strip_read. cbn [mbind res_bind fst snd]. rewrite strip_bind.
  rewrite (strip_for (bmu_round_body g) (fun i '(st, ok) => x ← round_body g i (ok, st); Ok (x.2, x.1))) by (intros; apply strip_round_body).
  assert (forall xs ok st, rfor xs (fun i '(st, ok) => x ← round_body g i (ok, st); Ok (x.2, x.1)) (st, ok) =
    (x ← rfor xs (round_body g) (ok, st); Ok (x.2, x.1))) as Hf.
  { induction xs as [|i xs IH]; intros ok st; [reflexivity|]. cbn [rfor]. destruct (round_body g i (ok, st)) as [[ok' st']| |]; cbn [mbind res_bind fst snd]; [apply IH|reflexivity|reflexivity]. }
  rewrite Hf. destruct (rfor _ _ _) as [[[] st']| |]; reflexivity.
Qed.
Lemma strip_bm_solve b : strip (bmu_solve b) = bm_solve b.
Proof.
  unfold bmu_solve, bm_solve. destruct b as [g l r vis]. cbn [bm_g bm_l bm_r bm_vis].
  match goal with |- strip (mbind _ (?m ?s)) = _ => set (M := m s);
    assert (strip M = (x ← rloop (S (length l)) (solve_step g) (vis, l, r);
      ret ← rfor (range 0 (length x.1.2)) (fun i ret => li ← vget x.1.2 i; Ok (match li with Some _ => ret + 1 | None => ret end)) 0; Ok (x, ret))) as H end.
  { unfold M. rewrite strip_bind, strip_read. cbn [mbind res_bind fst snd]. rewrite strip_bind.
    pose proof (strip_loop (fun (st : mst) (_ : unit) => st) (fun (st : mst) (_ : unit) => st) (bmu_solve_step g) (solve_step g)) as HL.
    specialize (fun X => HL X (S (length l)) tt (vis, l, r)). cbn beta in HL. rewrite HL; clear HL.
    - destruct (strip (uloop _ _ _ _)) as [[st []]| |]; cbn [mbind res_bind]; [|reflexivity|reflexivity]. rewrite strip_read. reflexivity.
    - intros [] st. rewrite strip_solve_step. destruct (solve_step g st) as [[?|?]| |]; reflexivity. }
  destruct (rloop _ _ _) as [[[vis' l'] r']| |]; cbn [mbind res_bind fst snd] in H |- *.
  - destruct (rfor _ _ _) as [ret| |]; cbn [mbind res_bind] in H |- *.
    + apply strip_Ok in H. rewrite H. reflexivity.
    + destruct M as [[[[? ?] ?] []]| |]; cbn in H |- *; congruence.
    + destruct M as [[[[? ?] ?] []]| |]; cbn in H |- *; congruence.
  - destruct M as [[[[? ?] ?] []]| |]; cbn in H |- *; congruence.
  - destruct M as [[[[? ?] ?] []]| |]; cbn in H |- *; congruence.
Qed.
Lemma strip_bm_step o b : strip (bmu_step o b) = bm_step b o.
Proof.
  destruct o as [u v|]; cbn [bmu_step bm_step]; rewrite strip_bind.
  - rewrite strip_bm_add_edge. destruct (bm_add_edge b u v); reflexivity.
  - rewrite strip_bm_solve. destruct (bm_solve b) as [[? ?]| |]; reflexivity.
Qed.

Lemma ends_strip {X A} (P : A -> X -> Prop) (U : X -> Prop) (r : res (X * option A)) :
  r <> Panic -> (exists s a, strip r = Ok (s, a) /\ P a s) \/ (strip r = Panic /\ forall s, r = Ok (s, None) -> U s) -> ends P U r.
Proof.
  intros Hp [(s & a & E & H)|[E H]].
  - apply strip_Ok in E. rewrite E. exact H.
  - apply strip_Panic in E as [E|[s E]]; [contradiction|]. rewrite E. apply H. exact E.
Qed.

Section Caught.
  Context (n m : nat) (g : list (list nat)) (Hgn : length g = n).
  Local Notation mok := (mok n m g).
  Local Notation bad := (bad m g).

  (** What dfs leaves when it unwinds: l and r as they were. *)
  Definition same_lr (l r : list (option nat)) (st : mst) : Prop := let '(vis', l', r') := st in length vis' = n /\ l' = l /\ r' = r /\ bad.

  Lemma take_edge_runs u v st x : take_edge u v st = Ok x -> bmu_take_edge u v st = Ok (x.2, Some x.1).
  Proof. intros E. apply strip_Ok. rewrite strip_take_edge, E. reflexivity. Qed.

  Lemma bmu_dfs_ok fuel : forall u vis l r, unvisited vis < fuel -> mok l r -> length vis = n -> u < n ->
    ends (fun b st => dfs_post n m g u vis l r (b, st)) (same_lr l r) (bmu_dfs fuel g u (vis, l, r)).
  Proof.
    induction fuel as [|fuel IH]; intros u vis l r Hf Hok Hlv Hu; [lia|].
    destruct (mdfs_ok n m g Hgn (S fuel) u vis l r Hf Hok Hlv Hu) as [[Ep Hbad]|([b st] & E & P)].
    2: { pose proof (strip_bm_dfs (S fuel) g u (vis, l, r)) as Es. rewrite E in Es. cbn [mbind res_bind fst snd] in Es. apply strip_Ok in Es. rewrite Es. exact P. }
    pose proof (strip_bm_dfs (S fuel) g u (vis, l, r)) as Es. rewrite Ep in Es. cbn [mbind res_bind] in Es.
    assert (ends (fun _ _ => True) (same_lr l r) (bmu_dfs (S fuel) g u (vis, l, r))) as H.
    2: { unfold ends in H |- *. destruct (bmu_dfs (S fuel) g u (vis, l, r)) as [[st [b|]]| |]; [discriminate Es|exact H|exact H|exact H]. }
    clear Ep Es. cbn [bmu_dfs].
    destruct (lookup_lt_is_Some_2 vis u) as [b Hb]; [lia|]. apply ends_bind, ends_read. left. cbn [fst]. exists b. split; [apply vget_ok; exact Hb|].
    destruct b; [exact Logic.I|]. apply ends_bind. rewrite (uwrite_ok _ _ (<[u:=true]> vis, l, r)) by (rewrite vset_ok by lia; reflexivity). cbn [ends].
    set (vis1 := <[u:=true]> vis).
    assert (Hl1 : length vis1 = n) by (unfold vis1; rewrite insert_length; exact Hlv).
    assert (Hf1 : unvisited vis1 < fuel) by (pose proof (unvisited_insert vis u Hb) as E; fold vis1 in E; lia).
    destruct (lookup_lt_is_Some_2 g u) as [es Hes]; [lia|]. apply ends_bind, ends_read. left. exists es. split; [apply vget_ok; exact Hes|].
    apply ends_bind, ends_read. cbn [snd].
    destruct (find_free_ok n m g Hgn r es (mk_r _ _ _ _ _ Hok)) as [(-> & v & Hv & Hvm)|[(v & -> & Hv & Hrv)|[-> Hall]]].
    { right. split; [reflexivity|]. repeat split; auto. }
    { left. eexists. split; [reflexivity|]. cbn beta iota.
      apply lookup_lt_Some in Hrv. rewrite (mk_r _ _ _ _ _ Hok) in Hrv.
      assert (exists x, take_edge u v (vis1, l, r) = Ok x) as [x Ex].
      { unfold take_edge. rewrite !vset_ok by (rewrite ?(mk_l _ _ _ _ _ Hok), ?(mk_r _ _ _ _ _ Hok); assumption). eauto. }
      rewrite (take_edge_runs _ _ _ _ Ex). exact Logic.I. }
    left. eexists. split; [reflexivity|]. cbn beta iota.
    assert (forall rest vis2, (forall v, v ∈ rest -> v ∈ es) -> length vis2 = n -> unvisited vis2 < fuel ->
      ends (fun _ _ => True) (same_lr l r) (bmu_try_edges (bmu_dfs fuel g) u rest (vis2, l, r))) as Hloop.
    { induction rest as [|v rest IHr]; intros vis2 Hsub Hl2 Hf2; cbn [bmu_try_edges]; [exact Logic.I|].
      destruct (Hall v) as [w Hw]; [apply Hsub; left|]. apply ends_bind, ends_read. left. cbn [snd]. exists w. rewrite (vget_ok _ _ _ Hw). split; [reflexivity|].
      pose proof (mk_rl _ _ _ _ _ Hok _ _ Hw) as Hlw. apply lookup_lt_Some in Hlw as Hwn. rewrite (mk_l _ _ _ _ _ Hok) in Hwn.
      apply ends_bind. eapply ends_mono; [apply (IH w vis2 l r Hf2 Hok Hl2 Hwn)| |auto]. intros b [[vis3 l3] r3] [Hle P]. destruct b.
      - destruct P as [_ A]. apply lookup_lt_Some in Hw. rewrite (mk_r _ _ _ _ _ Hok) in Hw.
        assert (exists x, take_edge u v (vis3, l3, r3) = Ok x) as [x Ex].
        { unfold take_edge. rewrite !vset_ok by (rewrite ?(au_l _ _ _ _ _ _ _ _ _ A), ?(au_r _ _ _ _ _ _ _ _ _ A); assumption). eauto. }
        rewrite (take_edge_runs _ _ _ _ Ex). exact Logic.I.
      - destruct P as (-> & -> & _). apply IHr; [intros; apply Hsub; right; assumption|destruct Hle; congruence|].
        pose proof (vis_le_unvisited _ _ Hle). lia. }
    apply Hloop; auto.
  Qed.

  (** What solve leaves when it unwinds: a matching along accepted edges. *)
  Definition left_ok (st : mst) : Prop := let '(vis, l, r) := st in length vis = n /\ mok l r /\ bad.

  Lemma bmu_round_ok l0 r0 i ok st : i < n -> round_inv n m g l0 r0 i (ok, st) ->
    ends (fun ok st => round_inv n m g l0 r0 (i + 1) (ok, st)) left_ok (bmu_round_body g i ok st).
  Proof.
    intros Hi HI. destruct (round_body_ok n m g Hgn l0 r0 i (ok, st) Hi HI) as [[Ep Hbad]|([ok' st'] & E & P)].
    2: { pose proof (strip_round_body g i ok st) as Es. rewrite E in Es. cbn [mbind res_bind fst snd] in Es. apply strip_Ok in Es. rewrite Es. exact P. }
    pose proof (strip_round_body g i ok st) as Es. rewrite Ep in Es. cbn [mbind res_bind] in Es.
    destruct st as [[vis l] r]. destruct HI as (Hv & Hok & _).
    assert (ends (fun _ _ => True) left_ok (bmu_round_body g i ok (vis, l, r))) as H.
    2: { unfold ends in H |- *. destruct (bmu_round_body g i ok (vis, l, r)) as [[st [b|]]| |]; [discriminate Es|exact H|exact H|exact H]. }
    unfold bmu_round_body. destruct (lookup_lt_is_Some_2 l i) as [li Hli]; [rewrite (mk_l _ _ _ _ _ Hok); exact Hi|].
    apply ends_bind, ends_read. left. cbn [fst snd]. exists li. split; [apply vget_ok; exact Hli|]. destruct li as [y|]; [exact Logic.I|].
    apply ends_bind. cbn [fst]. eapply ends_mono; [apply bmu_dfs_ok; [|exact Hok|exact Hv|exact Hi]|intros; exact Logic.I|].
    - assert (forall v, unvisited v <= length v) as Hu by (clear; induction v as [|b v IH]; cbn; [lia|destruct b; lia]). specialize (Hu vis). lia.
    - intros [[vis' l'] r'] (H1 & -> & -> & _). repeat split; auto; apply Hok.
  Qed.

  Lemma bmu_rounds_ok l0 r0 st : round_inv n m g l0 r0 0 (false, st) ->
    ends (fun ok st => round_inv n m g l0 r0 n (ok, st)) left_ok (ufor (range 0 n) (bmu_round_body g) false st).
  Proof.
    intros H0. pose proof (ufor_inv (fun dn ok st => round_inv n m g l0 r0 (length dn) (ok, st)) left_ok (range 0 n) (bmu_round_body g)) as H.
    specialize (fun X => H X false st H0). eapply ends_mono; [apply H| |auto].
    - intros d i rest ok s Hsp Hs. assert (i = length d /\ i < n) as [-> Hi].
      { assert (range 0 n !! length d = Some i) as Hx by (rewrite Hsp; apply list_lookup_middle; reflexivity).
        unfold range in Hx. apply lookup_seq in Hx. lia. }
      rewrite app_length. cbn [length]. apply bmu_round_ok; [exact Hi|exact Hs].
    - intros ok s. unfold range. rewrite seq_length, Nat.sub_0_r. auto.
  Qed.

  Lemma bmu_loop_ok vis l r : length vis = n -> mok l r ->
    ends (fun _ st => left_ok st \/ solved n m g st) left_ok (uloop (S (length l)) (bmu_solve_step g) tt (vis, l, r)).
  Proof.
    intros Hv Hok.
    apply (ends_loop (fun k (_ : unit) '(vis, l, r) => length vis = n /\ mok l r /\ k = n - length (matched l)) (fun _ st => left_ok st \/ solved n m g st) left_ok)
      with (m := n - length (matched l)).
    - intros k [] [[vis1 l1] r1] (Hv1 & Hok1 & Hk). unfold bmu_solve_step. apply ends_bind.
      rewrite (uwrite_ok _ _ (replicate (length vis1) false, l1, r1)) by reflexivity. cbn [ends].
      apply ends_bind, ends_read. left. eexists. split; [reflexivity|]. cbn [fst snd]. rewrite (mk_l _ _ _ _ _ Hok1). apply ends_bind.
      eapply ends_mono; [apply (bmu_rounds_ok l1 r1)| |auto].
      + cbn. rewrite replicate_length. split; [exact Hv1|]. split; [exact Hok1|]. split; [reflexivity|]. split; [reflexivity|]. split; [lia|].
        intros x es v _ Hx. apply lookup_replicate in Hx as [Hx _]. discriminate.
      + intros ok [[vis2 l2] r2] (Hv2 & Hok2 & H2). cbn [ends uret]. destruct ok.
        * exists (n - length (matched l2)). split; [|auto]. pose proof (matched_le n l2 (mk_l _ _ _ _ _ Hok2)). lia.
        * right. destruct H2 as (-> & -> & H & Hc). cbn. auto.
    - rewrite (mk_l _ _ _ _ _ Hok). lia.
    - auto.
  Qed.
End Caught.

Lemma bmu_solve_ok n m E b : binv n m E b ->
  ends (fun k b' => binv n m E b' /\ max_matching_size E k /\ exists M, matching E M /\ length M = k /\ forall e, e ∈ M -> e.2 < m)
    (fun b' => binv n m E b' /\ exists u v, (u, v) ∈ E /\ m <= v) (bmu_solve b).
Proof.
  intros [B1 B3 B4 B5]. destruct b as [g l r vis]. cbn [bm_g bm_l bm_r bm_vis] in *.
  pose proof (strip_bm_solve (BM g l r vis)) as Es.
  destruct (bm_solve_ok n m g B1 E B3 l r vis B4 B5) as [[Ep (u & es & v & Hes & Hin & Hm)]|(l' & r' & vis' & Ek & Hv' & Hok' & HM & Hmax)].
  - rewrite Ep in Es. assert (ends (fun _ _ => True) (fun b' => binv n m E b') (bmu_solve (BM g l r vis))) as H.
    2: { unfold ends in H |- *. destruct (bmu_solve _) as [[st [k|]]| |]; [discriminate Es| |exact H|exact H]. split; [exact H|].
         exists u, v. split; [apply B3; eauto|exact Hm]. }
    clear Ep Es. unfold bmu_solve. cbn [bm_g bm_l bm_r bm_vis].
    match goal with |- ends _ _ (mbind _ (?mm ?s)) => set (M := mm s); assert (ends (fun _ _ => True) (left_ok n m g) M) as H end.
    { unfold M. apply ends_bind, ends_read. left. eexists. split; [reflexivity|]. cbn [fst snd]. apply ends_bind.
      eapply ends_mono; [apply (bmu_loop_ok n m g B1 vis l r B4 B5)| |auto]. intros _ [[vis' l'] r'] _. apply ends_read. left. cbn [fst snd].
      rewrite (count_loop n g B1). eauto. }
    destruct M as [[[[vis' l'] r'] [k|]]| |]; cbn [ends mbind res_bind] in H |- *; [exact Logic.I| |exact H|exact H].
    destruct H as (Hv' & Hok' & _). split; cbn; assumption.
  - rewrite Ek in Es. apply strip_Ok in Es. rewrite Es. cbn [ends]. split; [split; cbn; assumption|]. split; [exact Hmax|].
    exists (pairs l'). split; [exact HM|]. split; [apply map_length|]. intros [x y] Hxy. apply pairs_spec in Hxy. cbn [snd].
    apply (mk_lr _ _ _ _ _ Hok') in Hxy. apply lookup_lt_Some in Hxy. rewrite (mk_r _ _ _ _ _ Hok') in Hxy. exact Hxy.
Qed.

Lemma bmu_history n m ops : forall E b, binv n m E b -> exists b' outs, urun bmu_step b ops = Ok (b', outs) /\ bm_after n m E ops outs.
Proof.
  induction ops as [|o ops IH]; intros E b Hb; cbn [urun]; [eexists _, _; split; [reflexivity|constructor]|].
  destruct o as [u v|]; cbn [bmu_step].
  - pose proof (strip_bm_add_edge u v b) as Es. destruct (decide (u < n)) as [Hu|Hu].
    + assert (exists b1, bm_add_edge b u v = Ok b1) as [b1 E1].
      { unfold bm_add_edge. destruct (lookup_lt_is_Some_2 (bm_g b) u) as [es Hes]; [rewrite (bi_n _ _ _ _ Hb); exact Hu|].
        rewrite (vget_ok _ _ _ Hes). cbn [mbind res_bind]. rewrite vset_ok by (rewrite (bi_n _ _ _ _ Hb); exact Hu). cbn [mbind res_bind]. eauto. }
      rewrite E1 in Es. cbn [mbind res_bind] in Es. apply strip_Ok in Es. rewrite (ubind_ok _ _ _ _ _ Es). cbn [uret mbind res_bind].
      destruct (bm_history n m [BmEdge u v] E b Hb) as [_ Hinv]. specialize (Hinv b1 [None]). cbn [run bm_step] in Hinv. rewrite E1 in Hinv.
      specialize (Hinv eq_refl). destruct (IH _ _ Hinv) as (b' & outs & -> & Ha). cbn [mbind res_bind]. eexists _, _. split; [reflexivity|].
      constructor; [exact Hu|exact Ha].
    + assert (bmu_add_edge u v b = Ok (b, None)) as E1.
      { unfold bmu_add_edge. apply ubind_unwound, uread_panic, vget_panic. rewrite (bi_n _ _ _ _ Hb). lia. }
      rewrite (ubind_unwound _ _ _ _ E1). cbn [mbind res_bind]. destruct (IH _ _ Hb) as (b' & outs & -> & Ha). cbn [mbind res_bind].
      eexists _, _. split; [reflexivity|]. apply bf_bad_edge; [lia|exact Ha].
  - destruct (ends_inv _ _ _ (bmu_solve_ok n m E b Hb)) as (b1 & [k|] & E1 & H).
    + rewrite (ubind_ok _ _ _ _ _ E1). cbn [uret mbind res_bind]. destruct H as (Hb1 & Hmax & HM). destruct (IH _ _ Hb1) as (b' & outs & -> & Ha). cbn [mbind res_bind].
      eexists _, _. split; [reflexivity|]. constructor; assumption.
    + rewrite (ubind_unwound _ _ _ _ E1). cbn [mbind res_bind]. destruct H as (Hb1 & u & v & Hin & Hm). destruct (IH _ _ Hb1) as (b' & outs & -> & Ha). cbn [mbind res_bind].
      eexists _, _. split; [reflexivity|]. apply (bf_bad_solve _ _ _ u v); assumption.
Qed.
