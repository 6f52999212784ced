(** Step counts of the graph algorithms: lockstep with the models that do not count, with credits. *)
From stdpp Require Import relations.
From Verif Require Import Prelude Eff EffSpec IntModel MatchingModel SccModel DinicModel MatchingSpec MatchingProof GraphWorkModel GraphWorkSpec.

Definition one_step : relation nat := fun a b => b = a + 1.
Lemma nsteps_one k a b : nsteps one_step k a b -> b = a + k.
Proof. induction 1 as [a|k a b c H _ IH]; [lia|]. unfold one_step in H. lia. Qed.
Lemma one_nsteps k a : nsteps one_step k a (a + k).
Proof.
  revert a. induction k as [|k IH]; intros a; [rewrite Nat.add_0_r; constructor|]. econstructor; [reflexivity|].
  replace (a + S k) with ((a + 1) + k) by lia. apply IH.
Qed.

Notation costs := (spends one_step).

Lemma costs_tick {A} c c' (q : A -> nat) (f : eff nat A) r : 1 + c' <= c -> costs c' q f r -> costs c q (tick ;;* f) r.
Proof.
  intros Hc H w. specialize (H (w + 1)). unfold ebind, tick. cbn [mbind res_bind]. destruct r as [a| |]; [|exact H|exact H].
  destruct H as (w' & k & E & N & L). exists w', (S k). split; [exact E|]. split; [econstructor; [reflexivity|exact N]|lia].
Qed.
Lemma costs_ticks {A} n c c' (q : A -> nat) (f : eff nat A) r : n + c' <= c -> costs c' q f r -> costs c q (ticks n ;;* f) r.
Proof.
  intros Hc H w. specialize (H (w + n)). unfold ebind, ticks. cbn [mbind res_bind]. destruct r as [a| |]; [|exact H|exact H].
  destruct H as (w' & k & E & N & L). exists w', (n + k). split; [exact E|]. split; [eapply nsteps_trans; [apply one_nsteps|exact N]|lia].
Qed.
Lemma costs_panic {A} c (q : A -> nat) : costs c q (elift Panic) Panic.
Proof. intros w. reflexivity. Qed.
Lemma costs_diverge {A} c (q : A -> nat) : costs c q (fun _ => Diverge) Diverge.
Proof. intros w. reflexivity. Qed.
(** for loops whose state holds credits *)
Lemma costs_for {A S} (I : S -> Prop) (pot : S -> nat) n (xs : list A) (body : A -> S -> eff nat S) bodyr s :
  I s -> (forall x s, x ∈ xs -> I s -> costs (n + pot s) pot (body x s) (bodyr x s)) ->
  (forall x s s', x ∈ xs -> I s -> bodyr x s = Ok s' -> I s') ->
  costs (length xs * n + pot s) pot (efor xs body s) (rfor xs bodyr s).
Proof.
  revert s. induction xs as [|x xs IH]; intros s Hs H HI; cbn [efor rfor length]; [apply spends_ret; lia|].
  apply (spends_bind one_step _ (fun s' => length xs * n + pot s')).
  - intros w. specialize (H x s ltac:(left) Hs w). destruct (bodyr x s) as [s'| |]; [|exact H|exact H].
    destruct H as (w' & k & E & N & L). exists w', k. repeat split; auto. lia.
  - intros s' E. apply IH; [eapply HI; [left|exact Hs|exact E]|..].
    + intros y s0 Hy. apply H. right. exact Hy.
    + intros y s0 s1 Hy. apply HI. right. exact Hy.
Qed.
(** while loops: at most fuel turns *)
Lemma costs_loop_fuel {S A} (I : S -> Prop) n (step : S -> eff nat (S + A)) stepr :
  (forall s, I s -> costs n (fun _ => 0) (step s) (stepr s)) -> (forall s s', I s -> stepr s = Ok (inl s') -> I s') ->
  forall fuel s, I s -> costs (fuel * n) (fun _ => 0) (eloop fuel step s) (rloop fuel stepr s).
Proof.
  intros H HI. induction fuel as [|fuel IH]; intros s Hs; [intros w; reflexivity|]. cbn [eloop rloop].
  eapply (spends_part_bind one_step n _ (fuel * n)); [apply H, Hs|lia|]. intros [s'|a] E; [apply IH; eapply HI; eassumption|apply spends_ret; lia].
Qed.

(** ** sums over the entries of a list *)
Fixpoint isum (f : nat -> nat) (n : nat) : nat := match n with O => 0 | S n => isum f n + f n end.
Lemma isum_ext f h n : (forall i, i < n -> f i = h i) -> isum f n = isum h n.
Proof. intros H. induction n as [|n IH]; [reflexivity|]. cbn [isum]. rewrite (H n) by lia. rewrite IH; [reflexivity|]. intros i Hi. apply H. lia. Qed.
Lemma isum_le f h n : (forall i, i < n -> f i <= h i) -> isum f n <= isum h n.
Proof. intros H. induction n as [|n IH]; [cbn; lia|]. cbn [isum]. pose proof (H n ltac:(lia)). assert (isum f n <= isum h n) by (apply IH; intros i Hi; apply H; lia). lia. Qed.
(** f and h differ at u only *)
Lemma isum_change f h n u : u < n -> (forall i, i <> u -> h i = f i) -> isum h n + f u = isum f n + h u.
Proof.
  intros Hu H. induction n as [|n IH]; [lia|]. cbn [isum]. destruct (decide (u = n)) as [->|Hne].
  - rewrite (isum_ext h f n); [lia|]. intros i Hi. apply H. lia.
  - rewrite (H n) by congruence. specialize (IH ltac:(lia)). lia.
Qed.
Lemma isum_const c n : isum (fun _ => c) n = n * c.
Proof. induction n as [|n IH]; [reflexivity|]. cbn [isum]. lia. Qed.
Lemma isum_plus f h n : isum (fun i => f i + h i) n = isum f n + isum h n.
Proof. induction n as [|n IH]; [reflexivity|]. cbn [isum]. lia. Qed.
Lemma isum_mul c f n : isum (fun i => c * f i) n = c * isum f n.
Proof. induction n as [|n IH]; [cbn; lia|]. cbn [isum]. lia. Qed.

(** Out-degree; they add up to the number of edges *)
Definition deg {A} (g : list (list A)) (u : nat) : nat := length (default [] (g !! u)).
Lemma deg_sum {A} (g : list (list A)) n : isum (deg g) n <= length (concat g).
Proof.
  revert n. induction g as [|es g IH] using rev_ind; intros n.
  - induction n as [|n IH]; [cbn; lia|]. cbn [isum]. unfold deg at 2. rewrite lookup_nil. cbn in *. lia.
  - rewrite concat_app, app_length. cbn [concat]. rewrite app_nil_r. 
    assert (H : forall n, isum (deg (g ++ [es])) n <= isum (deg g) n + if decide (length g < n) then length es else 0).
    { clear n. induction n as [|n IHn]; [cbn; lia|]. cbn [isum]. unfold deg at 2 4. destruct (Nat.lt_trichotomy n (length g)) as [Hl|[->|Hl]].
      - rewrite lookup_app_l by lia. repeat case_decide; try lia.
      - rewrite list_lookup_middle by reflexivity. cbn [default from_option id]. rewrite (lookup_ge_None_2 g) by lia. cbn [default from_option id length]. repeat case_decide; try lia.
      - rewrite !lookup_ge_None_2 by (rewrite ?app_length; cbn; lia). cbn [default from_option id length]. repeat case_decide; lia. }
    specialize (H n). specialize (IH n). case_decide; lia.
Qed.

(** ** bipartite matching *)
Section Matching.
  Context (g : list (list nat)).

  (** Credits: three per edge of an unvisited vertex (read in the first loop, read in the second, call). *)
  Definition mpot (st : mst) : nat := isum (fun u => match st.1.1 !! u with Some false => 3 * deg g u | _ => 0 end) (length st.1.1).

  Lemma take_edge_vis u v st x : take_edge u v st = Ok x -> x.2.1.1 = st.1.1.
  Proof.
    destruct st as [[vis l] r]. unfold take_edge. destruct (vset l u (Some v)); cbn [mbind res_bind]; [|discriminate..].
    destruct (vset r v (Some u)); cbn [mbind res_bind]; [|discriminate..]. intros [= <-]. reflexivity.
  Qed.
  Lemma take_edge_cost u v st c : mpot st <= c -> costs c (fun x => mpot x.2) (elift (take_edge u v st)) (take_edge u v st).
  Proof. intros H. apply spends_lift. intros x Hx. unfold mpot in *. rewrite (take_edge_vis _ _ _ _ Hx). exact H. Qed.

  Lemma find_free_cost r es : costs (length es) (fun _ => 0) (find_freeW r es) (find_free r es).
  Proof.
    induction es as [|v es IH]; cbn [find_freeW find_free length]; [apply spends_ret; lia|]. eapply costs_tick; [reflexivity|].
    apply spends_lift_bind. intros [x|] _; [exact IH|apply spends_ret; lia].
  Qed.

  Lemma try_edges_cost rec recr u : (forall w st, costs (1 + mpot st) (fun x => mpot x.2) (rec w st) (recr w st)) ->
    forall es st, costs (2 * length es + mpot st) (fun x => mpot x.2) (try_edgesW rec u es st) (try_edges recr u es st).
  Proof.
    intros H. induction es as [|v es IH]; intros st; cbn [try_edgesW try_edges length]; [apply spends_ret; cbn; lia|].
    apply (costs_tick _ (1 + mpot st + 2 * length es)); [lia|]. apply spends_lift_bind. intros rv _. apply spends_lift_bind. intros w _.
    apply (spends_bind one_step _ (fun x => mpot x.2 + 2 * length es)).
    - intros w0. specialize (H w st w0). destruct (recr w st) as [x| |]; [|exact H|exact H]. destruct H as (w' & k & E & N & L). exists w', k. repeat split; auto. lia.
    - intros [b st'] _. cbn [fst snd]. destruct b; [apply take_edge_cost; lia|]. eapply spends_weak; [apply IH|lia|auto].
  Qed.

  Lemma mdfs_cost fuel : forall u st, costs (1 + mpot st) (fun x => mpot x.2) (mdfsW fuel g u st) (mdfs fuel g u st).
  Proof.
    induction fuel as [|fuel IH]; intros u st; cbn [mdfsW mdfs]; [apply costs_diverge|]. eapply costs_tick; [reflexivity|]. destruct st as [[vis l] r].
    apply spends_lift_bind. intros b Hb. destruct b; [apply spends_ret; cbn; lia|].
    apply spends_lift_bind. intros vis' Hvis. apply spends_lift_bind. intros es Hes. apply vget_ok_iff in Hb, Hes.
    unfold vset in Hvis. case_decide as Hu; [|discriminate]. injection Hvis as <-.
    assert (Hp : mpot (<[u:=true]> vis, l, r) + 3 * length es = mpot (vis, l, r)).
    { unfold mpot. cbn [fst]. rewrite insert_length.
      pose proof (isum_change (fun u => match vis !! u with Some false => 3 * deg g u | _ => 0 end)
        (fun x => match <[u:=true]> vis !! x with Some false => 3 * deg g x | _ => 0 end) (length vis) u Hu) as H.
      cbn beta in H. rewrite list_lookup_insert, Hb in H by exact Hu. assert (Hd : deg g u = length es) by (unfold deg; rewrite Hes; reflexivity). rewrite Hd in H.
      rewrite Nat.add_0_r in H. apply H. intros i Hi. rewrite list_lookup_insert_ne by congruence. reflexivity. }
    eapply (spends_part_bind one_step (length es) _ (2 * length es + mpot (<[u:=true]> vis, l, r))); [apply find_free_cost|lia|].
    intros [v|] _; [apply take_edge_cost; lia|]. apply try_edges_cost. exact IH.
  Qed.

  Lemma round_body_cost i s : costs (2 + mpot s.2) (fun x => mpot x.2) (round_bodyW g i s) (round_body g i s).
  Proof.
    destruct s as [ok [[vis l] r]]. cbn [snd]. unfold round_bodyW, round_body. apply (costs_tick _ (1 + mpot (vis, l, r))); [lia|].
    apply spends_lift_bind. intros [y|] _; [apply spends_ret; cbn; lia|].
    eapply spends_bind; [apply mdfs_cost|]. intros [b st] _. apply spends_ret. cbn. lia.
  Qed.

  (** Steps of one round with n left vertices *)
  Definition round_steps (n : nat) : nat := 1 + 3 * n + 3 * length (concat g).

  Lemma solve_step_cost n s : length s.1.1 = n -> length s.1.2 = n -> costs (round_steps n) (fun _ => 0) (solve_stepW g s) (solve_step g s).
  Proof.
    destruct s as [[vis l] r]. cbn [fst snd]. intros Hv Hl. unfold solve_stepW, solve_step, round_steps. apply (costs_tick _ (3 * n + 3 * length (concat g))); [lia|].
    apply (costs_ticks _ _ (2 * n + 3 * length (concat g))); [lia|].
    assert (Hp : mpot (replicate (length vis) false, l, r) <= 3 * length (concat g)).
    { unfold mpot. cbn [fst]. rewrite replicate_length. rewrite (isum_ext _ (fun u => 3 * deg g u)).
      2:{ intros i Hi. rewrite lookup_replicate_2 by exact Hi. reflexivity. }
      rewrite isum_mul. pose proof (deg_sum g (length vis)). lia. }
    apply (spends_bind one_step _ (fun x => mpot x.2)).
    - eapply spends_weak; [apply (costs_for (fun _ => True) (fun x : bool * mst => mpot x.2) 2); auto|..].
      + intros i x _ _. apply round_body_cost.
      + unfold range. rewrite seq_length. cbn [snd]. lia.
      + intros a _. lia.
    - intros [b st] _. cbn [fst snd]. destruct b; apply spends_ret; lia.
  Qed.
End Matching.

Lemma bm_solve_cost n m E b : binv n m E b ->
  costs ((1 + n - length (matched (bm_l b))) * round_steps (bm_g b) n + n) (fun x => (n - length (matched (bm_l x.1))) * round_steps (bm_g b) n)
    (bm_solveW b) (bm_solve b).
Proof.
  intros [B1 _ B3 B4]. set (C := round_steps (bm_g b) n). unfold bm_solveW, bm_solve.
  pose (I := fun s : mst => length s.1.1 = n /\ mok n m (bm_g b) s.1.2 s.2).
  pose (pot := fun s : mst => (1 + n - length (matched s.1.2)) * C + n). pose (q := fun s : mst => (n - length (matched s.1.2)) * C + n).
  assert (Hle : forall l r, mok n m (bm_g b) l r -> length (matched l) <= n).
  { intros l r H. apply matched_le, (mk_l _ _ _ _ _ H). }
  apply (spends_bind one_step _ (fun s => if decide (length s.1.2 = n) then q s else 0)).
  - eapply spends_weak; [apply (spends_loop one_step I pot (fun s => if decide (length s.1.2 = n) then q s else 0))| |auto].
    + intros [[vis l] r] [Hv Hok]. cbn [fst snd] in Hv, Hok. pose proof (solve_step_cost (bm_g b) n (vis, l, r) Hv (mk_l _ _ _ _ _ Hok)) as Hc.
      pose proof (solve_turn n m (bm_g b) B1 vis l r Hv Hok) as Ht. intros w. specialize (Hc w).
      destruct (solve_step (bm_g b) (vis, l, r)) as [o| |]; [|exact Hc|exact Hc]. destruct Hc as (w' & k & E' & N & L).
      destruct Ht as [[? _]|(o' & [= <-] & Ho)]; [discriminate|]. exists w', k. split; [exact E'|]. split; [exact N|].
      specialize (Hle l r Hok) as Hl. unfold pot, q. fold C in L. destruct o as [[[vis2 l2] r2]|[[vis2 l2] r2]]; cbn [fst snd] in *.
      * destruct Ho as (_ & Hok2 & Hlt). specialize (Hle l2 r2 Hok2).
        replace (1 + n - length (matched l)) with (S (n - length (matched l))) by lia.
        assert ((1 + n - length (matched l2)) * C <= (n - length (matched l)) * C) by (apply Nat.mul_le_mono_r; lia). lia.
      * destruct Ho as (_ & ->). rewrite decide_True by apply (mk_l _ _ _ _ _ Hok). replace (1 + n - length (matched l)) with (S (n - length (matched l))) by lia. lia.
    + intros [[vis l] r] s' [Hv Hok] Es. cbn [fst snd] in Hv, Hok. destruct (solve_turn n m (bm_g b) B1 vis l r Hv Hok) as [[? _]|(o & Eo & Ho)]; [congruence|].
      rewrite Es in Eo. injection Eo as <-. destruct s' as [[vis2 l2] r2]. destruct Ho as (H1 & H2 & _). split; assumption.
    + split; cbn [fst snd]; assumption.
    + unfold pot. cbn [fst snd]. lia.
  - intros [[vis l] r] El. cbn [fst snd]. case_decide as Hl; unfold q; cbn [fst snd].
    + apply (spends_bind one_step _ (fun _ => (n - length (matched l)) * C)).
      * intros w. assert (Hf : costs (length (range 0 (length l)) * 1 + (fun _ : nat => 0) 0) (fun _ => 0)
          (efor (range 0 (length l)) (fun i ret => tick ;;* li <* elift (vget l i) ;* eret (match li with Some _ => ret + 1 | None => ret end)) 0)
          (rfor (range 0 (length l)) (fun i ret => li ← vget l i; Ok (match li with Some _ => ret + 1 | None => ret end)) 0)).
        { apply (costs_for (fun _ => True)); auto. intros i ret _ _. eapply costs_tick; [reflexivity|]. apply spends_lift_bind. intros a _. apply spends_ret. lia. }
        specialize (Hf w). destruct (rfor _ _ 0); [|exact Hf|exact Hf]. destruct Hf as (w' & k & E' & N & L). exists w', k. split; [exact E'|]. split; [exact N|].
        unfold range in L. rewrite seq_length in L. lia.
      * intros ret _. apply spends_ret. cbn [fst bm_l]. lia.
    + exfalso. apply Hl. destruct (solve_loop n m (bm_g b) B1 (bm_vis b) (bm_l b) (bm_r b) B3 B4) as [[? _]|(s & Es & Hs)]; [congruence|].
      rewrite El in Es. injection Es as <-. destruct Hs as (_ & Hok & _). apply (mk_l _ _ _ _ _ Hok).
Qed.

Lemma concat_insert_length {A} (g : list (list A)) u es es' : g !! u = Some es -> length (concat (<[u:=es']> g)) + length es = length (concat g) + length es'.
Proof.
  intros H. pose proof (lookup_lt_Some _ _ _ H) as Hl. rewrite insert_take_drop by exact Hl. rewrite <- (take_drop_middle g u es H) at 3.
  rewrite !concat_app, !concat_cons, !app_length. lia.
Qed.

Lemma bm_history_cost n m M ops : forall E b, binv n m E b -> length (concat (bm_g b)) + added ops <= M ->
  costs ((n - length (matched (bm_l b)) + solves ops) * (1 + 3 * n + 3 * M)
         + solves ops * n)
    (fun _ => 0) (erun bm_stepW b ops) (ArraySpec.run bm_step b ops).
Proof.
  induction ops as [|o ops IH]; intros E b Hb HM; cbn [erun ArraySpec.run]; [apply spends_ret, Nat.le_0_l|].
  pose proof (bm_history n m [o] E b Hb) as [_ Hnext]. cbn [ArraySpec.run] in Hnext.
  assert (Hcont : forall c (x : bm * option nat), costs c (fun _ => 0) (erun bm_stepW x.1 ops) (ArraySpec.run bm_step x.1 ops) ->
    costs c (fun _ => 0) (let '(s, out) := x in '(s, outs) <* erun bm_stepW s ops ;* eret (s, out :: outs))
      (let '(s, out) := x in '(s, outs) ← ArraySpec.run bm_step s ops; Ok (s, out :: outs))).
  { intros c [s out] H. apply (spends_bind one_step _ (fun _ => 0)); [exact H|]. intros [s' outs] _. apply spends_ret. lia. }
  destruct o as [u v|]; cbn [solves added] in *.
  - eapply (spends_bind one_step _ (fun _ => _)).
    + cbn [bm_stepW bm_step]. apply spends_lift_bind. intros b' _. apply spends_ret. reflexivity.
    + intros x Ex. rewrite Ex in Hnext. cbn [mbind res_bind] in Hnext. cbn [bm_step] in Ex. destruct x as [b' out]. specialize (Hnext b' [out] eq_refl).
      unfold bm_add_edge in Ex. destruct (vget (bm_g b) u) as [es| |] eqn:Hes; cbn [mbind res_bind] in Ex; try discriminate. apply vget_ok_iff in Hes.
      destruct (vset (bm_g b) u (es ++ [v])) as [g'| |] eqn:Hg; cbn [mbind res_bind] in Ex; try discriminate. injection Ex as <- <-.
      unfold vset in Hg. case_decide as Hu; [|discriminate]. injection Hg as <-. pose proof (concat_insert_length (bm_g b) u es (es ++ [v]) Hes) as Hl. rewrite app_length in Hl. cbn [length] in Hl.
      apply (Hcont _ (BM _ _ _ _, _)). cbn [fst]. apply (IH _ _ Hnext). cbn [bm_g]. lia.
  - set (k := solves ops) in *. set (C := 1 + 3 * n + 3 * M).
    apply (spends_bind one_step _ (fun x => (n - length (matched (bm_l x.1)) + k) * C + k * n)).
    + cbn [bm_stepW bm_step]. apply (spends_bind one_step _ (fun x => (n - length (matched (bm_l x.1)) + k) * C + k * n)); [|intros x _; apply spends_ret; cbn; lia].
      intros w. pose proof (bm_solve_cost n m E b Hb w) as Hc. destruct (bm_solve b) as [x| |] eqn:Ex; [|exact Hc|exact Hc]. destruct Hc as (w' & j & E' & N & L).
      exists w', j. split; [exact E'|]. split; [exact N|].
      set (a := n - length (matched (bm_l x.1))) in *. set (R := round_steps (bm_g b) n) in *.
      assert (HR : R <= C) by (unfold R, C, round_steps; lia).
      assert (Hm : length (matched (bm_l b)) <= n) by (apply matched_le, (mk_l _ _ _ _ _ (bi_ok _ _ _ _ Hb))).
      replace (1 + n - length (matched (bm_l b))) with (S (n - length (matched (bm_l b)))) in L by lia. set (a0 := n - length (matched (bm_l b))) in *.
      assert (a <= S a0 \/ S a0 < a) as [Ha|Ha] by lia.
      * assert (j <= (S a0 - a) * R + n) by (rewrite Nat.mul_sub_distr_r; nia).
        assert ((S a0 - a) * R <= (S a0 - a) * C) by (apply Nat.mul_le_mono_l; exact HR).
        assert ((a + k) * C + (S a0 - a) * C = (S a0 + k) * C) by (rewrite <- Nat.mul_add_distr_r; f_equal; lia).
        replace (a0 + S k) with (S a0 + k) by lia. lia.
      * exfalso. assert (n < R) by (unfold R, round_steps; lia). assert ((S a0 + 1) * R <= a * R) by (apply Nat.mul_le_mono_r; lia). lia.
    + intros x Ex. rewrite Ex in Hnext. cbn [mbind res_bind] in Hnext. cbn [bm_step] in Ex. destruct x as [b' out]. specialize (Hnext b' [out] eq_refl).
      apply (Hcont _ (b', out)). cbn [fst]. apply (IH _ _ Hnext).
      cbn [bm_step] in Ex. unfold bm_solve in Ex. destruct (rloop _ _ _) as [[[vis l] r]| |]; cbn [mbind res_bind] in Ex; try discriminate.
      destruct (rfor _ _ 0) as [ret| |]; cbn [mbind res_bind] in Ex; try discriminate. injection Ex as <- <-. cbn [bm_g]. lia.
Qed.

(** ** strongly connected components *)
Section Scc.
  Open Scope Z_scope.
  Context (g : list (list nat)).

  (** Credits: an unseen vertex pays for its call, its edges, its pop, its colour and its component. *)
  Definition fresh_pot (ord : list Z) : nat := isum (fun u => match ord !! u with Some x => if x =? -1 then (4 + deg g u)%nat else 0%nat | None => 0%nat end) (length ord).
  Definition tpot (st : tj) : nat := (fresh_pot (tj_ord st) + 3 * length (tj_stk st) + length (concat (tj_comp st)) + length (tj_comp st))%nat.

  Lemma enter_pot u st st' : 0 <= tj_pos st -> tj_ord st !! u = Some (-1) -> tj_enter u st = Ok st' ->
    0 <= tj_pos st' /\ (1 + deg g u + tpot st' <= tpot st)%nat.
  Proof.
    intros Hp Hu. unfold tj_enter. destruct (vset (tj_ord st) u (tj_pos st)) as [ord| |] eqn:E1; cbn [mbind res_bind]; [|discriminate..].
    destruct (vset (tj_low st) u (tj_pos st)) as [low| |]; cbn [mbind res_bind]; [|discriminate..].
    destruct (iadd i32 (tj_pos st) 1) as [pos| |] eqn:E2; cbn [mbind res_bind]; [|discriminate..].
    destruct (vset (tj_ons st) u true) as [ons| |]; cbn [mbind res_bind]; [|discriminate..]. intros [= <-]. cbn [tj_pos].
    split. { unfold iadd, chk in E2. case_match; [|discriminate]. injection E2 as <-. lia. }
    unfold tpot. cbn [tj_ord tj_stk tj_comp length]. unfold vset in E1. case_decide as Hl; [|discriminate]. injection E1 as <-.
    unfold fresh_pot. rewrite insert_length.
    pose proof (isum_change (fun x => match tj_ord st !! x with Some y => if y =? -1 then (4 + deg g x)%nat else 0%nat | None => 0%nat end)
      (fun x => match <[u:=tj_pos st]> (tj_ord st) !! x with Some y => if y =? -1 then (4 + deg g x)%nat else 0%nat | None => 0%nat end) (length (tj_ord st)) u Hl) as H.
    cbn beta in H. rewrite list_lookup_insert, Hu in H by exact Hl. rewrite (proj2 (Z.eqb_neq (tj_pos st) (-1))) in H by lia.
    rewrite (proj2 (Z.eqb_eq (-1) (-1)) eq_refl) in H. assert (H' := H ltac:(intros i Hi; rewrite list_lookup_insert_ne by congruence; reflexivity)). clear H. lia.
  Qed.

  Lemma pop_comp_cost u : forall stk ons comp, costs (3 * length stk + length comp) (fun x => 3 * length x.1.1 + length x.2 + 1)%nat
    (pop_compW u stk ons comp) (pop_comp u stk ons comp).
  Proof.
    induction stk as [|v stk IH]; intros ons comp; cbn [pop_compW pop_comp]; [intros w; reflexivity|].
    eapply (costs_tick _ (3 * length stk + length comp + 2)%nat); [cbn [length]; lia|]. apply spends_lift_bind. intros ons' _. destruct (u =? v)%nat.
    - apply spends_ret. cbn [fst snd]. rewrite app_length. cbn [length]. lia.
    - eapply spends_weak; [apply IH|rewrite app_length; cbn [length]; lia|auto].
  Qed.

  Lemma leave_cost u st : costs (tpot st) tpot (tj_leaveW u st) (tj_leave u st).
  Proof.
    unfold tj_leaveW, tj_leave. apply spends_lift_bind. intros lu _. apply spends_lift_bind. intros ou _. destruct (lu =? ou); [|apply spends_ret; lia].
    apply (spends_bind one_step _ (fun x => (fresh_pot (tj_ord st) + length (concat (tj_comp st)) + length (tj_comp st)) + (3 * length x.1.1 + length x.2 + 1))%nat).
    - intros w. pose proof (pop_comp_cost u (tj_stk st) (tj_ons st) [] w) as H. destruct (pop_comp u (tj_stk st) (tj_ons st) []) as [x| |]; [|exact H|exact H].
      destruct H as (w' & k & E & N & L). exists w', k. split; [exact E|]. split; [exact N|]. unfold tpot. cbn [length] in L. lia.
    - intros [[stk ons] comp] _. apply spends_ret. unfold tpot. cbn [tj_ord tj_stk tj_comp fst snd]. rewrite concat_app, !app_length. cbn [concat length]. rewrite app_nil_r. lia.
  Qed.
  Lemma leave_pos u st st' : tj_leave u st = Ok st' -> tj_pos st' = tj_pos st.
  Proof.
    unfold tj_leave. destruct (vget (tj_low st) u) as [lu| |]; cbn [mbind res_bind]; [|discriminate..]. destruct (vget (tj_ord st) u) as [ou| |]; cbn [mbind res_bind]; [|discriminate..].
    destruct (lu =? ou); [|intros [= <-]; reflexivity]. destruct (pop_comp _ _ _ _) as [[[stk ons] comp]| |]; cbn [mbind res_bind]; [|discriminate..]. intros [= <-]. reflexivity.
  Qed.

  Lemma edge_body_pos recr u v st st' : (forall w st st', 0 <= tj_pos st -> recr w st = Ok st' -> 0 <= tj_pos st') ->
    0 <= tj_pos st -> edge_body recr u v st = Ok st' -> 0 <= tj_pos st'.
  Proof.
    intros H Hp. unfold edge_body. destruct (vget (tj_ord st) v) as [o| |]; cbn [mbind res_bind]; [|discriminate..].
    assert (Hp' : forall st1, (if o =? -1 then recr v st else Ok st) = Ok st1 -> 0 <= tj_pos st1).
    { intros st1. destruct (o =? -1); [apply H, Hp|intros [= <-]; exact Hp]. }
    destruct (if o =? -1 then recr v st else Ok st) as [st1| |]; cbn [mbind res_bind]; [|discriminate..]. specialize (Hp' st1 eq_refl).
    destruct (vget (tj_ons st1) v) as [b| |]; cbn [mbind res_bind]; [|discriminate..]. destruct b; [|intros [= <-]; exact Hp'].
    destruct (vget (tj_low st1) u) as [lu| |]; cbn [mbind res_bind]; [|discriminate..]. destruct (vget (tj_low st1) v) as [lv| |]; cbn [mbind res_bind]; [|discriminate..].
    destruct (vset _ u _) as [low| |]; cbn [mbind res_bind]; [|discriminate..]. intros [= <-]. exact Hp'.
  Qed.
  Lemma edges_pos recr u es : (forall w st st', 0 <= tj_pos st -> recr w st = Ok st' -> 0 <= tj_pos st') ->
    forall st st', 0 <= tj_pos st -> rfor es (edge_body recr u) st = Ok st' -> 0 <= tj_pos st'.
  Proof.
    intros H. induction es as [|v es IH]; intros st st' Hp; cbn [rfor]; [intros [= <-]; exact Hp|].
    destruct (edge_body recr u v st) as [st1| |] eqn:E; cbn [mbind res_bind]; [|discriminate..]. apply IH. eapply edge_body_pos; eassumption.
  Qed.
  Lemma enter_pos u st st' : 0 <= tj_pos st -> tj_enter u st = Ok st' -> 0 <= tj_pos st'.
  Proof.
    intros Hp. unfold tj_enter. destruct (vset (tj_ord st) u (tj_pos st)) as [ord| |] eqn:E1; cbn [mbind res_bind]; [|discriminate..].
    destruct (vset (tj_low st) u (tj_pos st)) as [low| |]; cbn [mbind res_bind]; [|discriminate..].
    destruct (iadd i32 (tj_pos st) 1) as [pos| |] eqn:E2; cbn [mbind res_bind]; [|discriminate..].
    destruct (vset (tj_ons st) u true) as [ons| |]; cbn [mbind res_bind]; [|discriminate..]. intros [= <-]. cbn [tj_pos].
    unfold iadd, chk in E2. case_match; [|discriminate]. injection E2 as <-. lia.
  Qed.
  Lemma tdfs_pos fuel : forall u st st', 0 <= tj_pos st -> tdfs fuel g u st = Ok st' -> 0 <= tj_pos st'.
  Proof.
    induction fuel as [|fuel IH]; intros u st st' Hp; cbn [tdfs]; [discriminate|].
    destruct (tj_enter u st) as [st1| |] eqn:E1; cbn [mbind res_bind]; [|discriminate..]. destruct (vget g u) as [es| |]; cbn [mbind res_bind]; [|discriminate..].
    destruct (rfor es (edge_body (tdfs fuel g) u) st1) as [st2| |] eqn:E2; cbn [mbind res_bind]; [|discriminate..]. intros E3. rewrite (leave_pos _ _ _ E3).
    eapply edges_pos; [exact IH|eapply enter_pos; eassumption|exact E2].
  Qed.

  Lemma tdfs_cost fuel : forall u st, 0 <= tj_pos st -> tj_ord st !! u = Some (-1) -> costs (tpot st) tpot (tdfsW fuel g u st) (tdfs fuel g u st).
  Proof.
    induction fuel as [|fuel IH]; intros u st Hp Hu; cbn [tdfsW tdfs]; [apply costs_diverge|].
    destruct (tj_enter u st) as [st1| |] eqn:E1; [|intros w; reflexivity|intros w; reflexivity].
    destruct (enter_pot u st st1 Hp Hu E1) as [Hp1 Hc]. apply (costs_tick _ (deg g u + tpot st1)%nat); [lia|].
    apply spends_lift_bind. intros st2 [= <-]. apply spends_lift_bind. intros es Hes. apply vget_ok_iff in Hes.
    assert (Hd : deg g u = length es) by (unfold deg; rewrite Hes; reflexivity). rewrite Hd.
    apply (spends_bind one_step _ tpot); [|intros st2 _; apply leave_cost].
    replace (length es + tpot st1)%nat with (length es * 1 + tpot st1)%nat by lia.
    apply (costs_for (fun st => 0 <= tj_pos st)); [exact Hp1| |].
    - intros v s _ Hs. unfold edge_bodyW, edge_body. eapply costs_tick; [reflexivity|]. apply spends_lift_bind. intros o Ho. apply vget_ok_iff in Ho.
      apply (spends_bind one_step _ tpot).
      + destruct (Z.eqb_spec o (-1)) as [->|]; [apply IH; assumption|apply spends_ret; lia].
      + intros s' _. apply spends_lift_bind. intros b _. destruct b; [|apply spends_ret; lia].
        apply spends_lift_bind. intros lu _. apply spends_lift_bind. intros lv _. apply spends_lift_bind. intros low _. apply spends_ret. unfold tpot. cbn [tj_ord tj_stk tj_comp]. lia.
    - intros v s s' _. apply edge_body_pos. apply tdfs_pos.
  Qed.

  Lemma scc_cost : costs (5 * length g + length (concat g)) (fun _ => 0%nat) (sccW g) (scc g).
  Proof.
    unfold sccW, scc.
    assert (Hp : (tpot (tj_new (length g)) <= 4 * length g + length (concat g))%nat).
    { unfold tpot, tj_new. cbn [tj_ord tj_stk tj_comp concat length]. unfold fresh_pot. rewrite replicate_length.
      rewrite (isum_ext _ (fun u => 4 + deg g u)%nat). 2:{ intros i Hi. rewrite lookup_replicate_2 by exact Hi. reflexivity. }
      rewrite isum_plus, isum_const. pose proof (deg_sum g (length g)). lia. }
    apply (spends_bind one_step _ tpot).
    - eapply spends_weak; [apply (costs_for (fun st => 0 <= tj_pos st) tpot 1)| |auto].
      + cbn. lia.
      + intros i st _ Hs. eapply costs_tick; [reflexivity|]. apply spends_lift_bind. intros o Ho. apply vget_ok_iff in Ho.
        destruct (Z.eqb_spec o (-1)) as [->|]; [apply tdfs_cost; assumption|apply spends_ret; lia].
      + intros i st st' _ Hs. cbn beta. destruct (vget (tj_ord st) i) as [o| |]; cbn [mbind res_bind]; [|discriminate..].
        destruct (o =? -1); [apply tdfs_pos, Hs|intros [= <-]; exact Hs].
      + unfold range. rewrite seq_length. lia.
    - intros st _. apply (spends_bind one_step _ (fun _ => 0%nat)); [|intros c _; apply spends_ret; lia].
      assert (H : forall comps i color, costs (length (concat comps) + length comps) (fun _ => 0%nat)
        (efor (zip (seq i (length comps)) comps) (fun ic color => tick ;;* efor ic.2 (fun x color => tick ;;* elift (vset color x ic.1)) color) color)
        (rfor (zip (seq i (length comps)) comps) (fun ic color => rfor ic.2 (fun x color => vset color x ic.1) color) color)).
      { induction comps as [|c comps IH]; intros i color; cbn [length seq zip zip_with efor rfor concat]; [apply spends_ret; lia|].
        rewrite app_length. eapply (spends_part_bind one_step (1 + length c) _ (length (concat comps) + length comps)); [|lia|intros color' _; apply IH].
        eapply costs_tick; [reflexivity|]. cbn [snd fst]. replace (length c) with (length c * 1)%nat by lia.
        eapply (spends_for one_step _ 1); [|reflexivity]. intros x s _. eapply (costs_tick _ 0); [lia|]. apply spends_lift. intros; lia. }
      unfold range. rewrite Nat.sub_0_r. eapply spends_weak; [apply H| |auto]. unfold tpot. lia.
  Qed.
  Close Scope Z_scope.
End Scc.
