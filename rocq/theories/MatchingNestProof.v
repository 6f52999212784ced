(** Augmenting paths: how deep the calls nest. *)
From Verif Require Import Prelude ArraySpec MatchingModel MatchingSpec MatchingProof TreeNestProof GraphNestModel.

(** More fuel changes no answer *)
Lemma try_upto (r r' : nat -> mst -> res (bool * mst)) u : (forall w st, upto (r w st) (r' w st)) -> forall es st, upto (try_edges r u es st) (try_edges r' u es st).
Proof.
  intros H. induction es as [|v es IH]; intros st; cbn [try_edges]; [apply upto_refl|]. apply upto_same. intros rv. apply upto_same. intros w. apply upto_bind; [apply H|]. intros [[|] st']; cbn [fst snd]; [apply upto_refl|apply IH].
Qed.
Lemma mdfs_upto g j : forall fuel u st, upto (mdfs fuel g u st) (mdfs (fuel + j) g u st).
Proof.
  induction fuel as [|fuel IH]; intros u [[vis l] r]; [left; reflexivity|]. cbn [Nat.add mdfs]. apply upto_same. intros [|]; [apply upto_refl|]. apply upto_same. intros vis1. apply upto_same. intros es.
  apply upto_same. intros [v|]; [apply upto_refl|]. apply try_upto, IH.
Qed.

(** What a search keeps; a failing one moves only the flags *)
Definition kept (st st' : mst) (b : bool) : Prop :=
  length st'.1.1 = length st.1.1 /\ length st'.1.2 = length st.1.2 /\ length st'.2 = length st.2 /\ vis_le st.1.1 st'.1.1 /\ (b = false -> st'.1.2 = st.1.2 /\ st'.2 = st.2).
Lemma kept_refl st b : kept st st b.
Proof. split_and!; auto; apply vis_le_refl. Qed.
Lemma vset_len {A} (l l' : list A) i x : vset l i x = Ok l' -> length l' = length l.
Proof. unfold vset. case_decide; [|discriminate]. intros [= <-]. apply insert_length. Qed.
Lemma take_kept u v st0 st b x : kept st0 st b -> take_edge u v st = Ok x -> kept st0 x.2 x.1.
Proof.
  destruct st as [[vis l] r]. intros (K1 & K2 & K3 & K4 & _) E. unfold take_edge in E. apply rbind_ok_inv in E as (l' & E1 & E). apply rbind_ok_inv in E as (r' & E2 & E). injection E as <-.
  cbn [fst snd] in *. unfold kept. cbn [fst snd]. rewrite (vset_len _ _ _ _ E1), (vset_len _ _ _ _ E2). split_and!; auto; discriminate.
Qed.
Lemma kept_trans a b c x : kept a b false -> kept b c x -> kept a c x.
Proof.
  intros (A1 & A2 & A3 & A4 & A5) (B1 & B2 & B3 & B4 & B5). destruct (A5 eq_refl) as [A6 A7]. split_and!; try congruence.
  - eapply vis_le_trans; eassumption.
  - intros Hx. destruct (B5 Hx). split; congruence.
Qed.
Lemma try_kept (rec : nat -> mst -> res (bool * mst)) u : (forall w st x, rec w st = Ok x -> kept st x.2 x.1) -> forall es st x, try_edges rec u es st = Ok x -> kept st x.2 x.1.
Proof.
  intros H. induction es as [|v es IH]; intros st x E; cbn [try_edges] in E; [injection E as <-; apply kept_refl|]. apply rbind_ok_inv in E as (rv & _ & E). apply rbind_ok_inv in E as (w & _ & E).
  apply rbind_ok_inv in E as ([b st1] & E1 & E). apply H in E1. cbn [fst snd] in *. destruct b; [eapply take_kept; eassumption|]. eapply kept_trans; [exact E1|]. apply IH. exact E.
Qed.
Lemma mdfs_kept g : forall fuel u st x, mdfs fuel g u st = Ok x -> kept st x.2 x.1.
Proof.
  induction fuel as [|fuel IH]; intros u [[vis l] r] x E; cbn [mdfs] in E; [discriminate|]. apply rbind_ok_inv in E as (b & Eb & E). destruct b; [injection E as <-; apply kept_refl|].
  apply rbind_ok_inv in E as (vis1 & E1 & E). apply rbind_ok_inv in E as (es & _ & E). apply rbind_ok_inv in E as (f & _ & E).
  assert (kept (vis, l, r) (vis1, l, r) false) as K.
  { unfold vset in E1. case_decide as Hu; [|discriminate]. injection E1 as <-. unfold kept. cbn [fst snd]. rewrite insert_length. split_and!; auto. apply vis_le_insert. exact Hu. }
  destruct f as [v|]; [eapply take_kept; eassumption|]. eapply kept_trans; [exact K|]. eapply try_kept; [exact IH|exact E].
Qed.

(** Vertices not yet visited that are partners *)
Definition waiting (vis : list bool) (r : list (option nat)) : list nat := filter (fun w => vis !! w = Some false /\ Some w ∈ r) (seq 0 (length vis)).
Lemma elem_waiting vis r w : w ∈ waiting vis r <-> vis !! w = Some false /\ Some w ∈ r.
Proof.
  unfold waiting. rewrite elem_of_list_filter, elem_of_seq. split; [tauto|]. intros H. split; [exact H|]. destruct H as [H _]. apply lookup_lt_Some in H. lia.
Qed.
Lemma NoDup_waiting vis r : NoDup (waiting vis r).
Proof. apply NoDup_filter, NoDup_seq. Qed.
Lemma waiting_mono vis vis' r : vis_le vis vis' -> length (waiting vis' r) <= length (waiting vis r).
Proof.
  intros H. apply submseteq_length, NoDup_submseteq; [apply NoDup_waiting|]. intros w. rewrite !elem_waiting. intros [H1 H2]. split; [|exact H2].
  destruct H as [Hl H]. destruct (lookup_lt_is_Some_2 vis w) as [[|] E]; [apply lookup_lt_Some in H1; lia| |exact E]. apply H in E. congruence.
Qed.
Lemma waiting_visit vis r w : w ∈ waiting vis r -> S (length (waiting (<[w:=true]> vis) r)) <= length (waiting vis r).
Proof.
  intros Hw. change (length (w :: waiting (<[w:=true]> vis) r) <= length (waiting vis r)). apply submseteq_length, NoDup_submseteq.
  - apply NoDup_cons. split; [|apply NoDup_waiting]. rewrite elem_waiting. intros [H _]. rewrite list_lookup_insert in H; [discriminate|]. apply elem_waiting in Hw as [Hw _]. eapply lookup_lt_Some, Hw.
  - intros x [->|Hx]%elem_of_cons; [exact Hw|]. apply elem_waiting in Hx as [H1 H2]. apply elem_waiting. split; [|exact H2]. destruct (decide (x = w)) as [->|Hne].
    + apply elem_waiting in Hw. apply Hw.
    + rewrite list_lookup_insert_ne in H1 by congruence. exact H1.
Qed.
Lemma waiting_right vis r : length (waiting vis r) <= length r.
Proof.
  rewrite <- (fmap_length Some (waiting vis r)). apply submseteq_length, NoDup_submseteq; [apply NoDup_fmap_2; [congruence|apply NoDup_waiting]|].
  intros x (w & -> & Hw)%elem_of_list_fmap. apply elem_waiting in Hw. apply Hw.
Qed.
Lemma waiting_left vis r u : u < length vis -> S (length (waiting (<[u:=true]> vis) r)) <= length vis.
Proof.
  intros Hu. rewrite <- (seq_length (length vis) 0). change (length (u :: waiting (<[u:=true]> vis) r) <= length (seq 0 (length vis))). apply submseteq_length, NoDup_submseteq.
  - apply NoDup_cons. split; [|apply NoDup_waiting]. rewrite elem_waiting. intros [H _]. rewrite list_lookup_insert in H by exact Hu. discriminate.
  - intros x [->|Hx]%elem_of_cons; apply elem_of_seq; [lia|]. apply elem_waiting in Hx as [H _]. apply lookup_lt_Some in H. rewrite insert_length in H. lia.
Qed.

(** Room for the partners not yet visited and two more is enough *)
Lemma mdfs_same g j : forall fuel u vis l r, 1 <= fuel -> (vis !! u = Some false -> 2 + length (waiting (<[u:=true]> vis) r) <= fuel) ->
  mdfs fuel g u (vis, l, r) = mdfs (fuel + j) g u (vis, l, r).
Proof.
  induction fuel as [|fuel IH]; intros u vis l r H1 H2; [lia|]. cbn [Nat.add mdfs]. destruct (vget vis u) as [b| |] eqn:Eb; cbn [mbind res_bind]; [|reflexivity|reflexivity]. destruct b; [reflexivity|].
  apply vget_ok_iff in Eb. specialize (H2 Eb). destruct (vset vis u true) as [vis1| |] eqn:E1; cbn [mbind res_bind]; [|reflexivity|reflexivity].
  assert (vis1 = <[u:=true]> vis) as -> by (unfold vset in E1; case_decide; [congruence|discriminate]). set (vis1 := <[u:=true]> vis) in *.
  destruct (vget g u) as [es| |]; cbn [mbind res_bind]; [|reflexivity|reflexivity]. destruct (find_free r es) as [[v|]| |]; cbn [mbind res_bind]; try reflexivity.
  assert (forall xs vis', vis_le vis1 vis' -> try_edges (mdfs fuel g) u xs (vis', l, r) = try_edges (mdfs (fuel + j) g) u xs (vis', l, r)) as HT.
  { induction xs as [|v xs IHx]; intros vis' Hv'; cbn [try_edges]; [reflexivity|]. cbn [snd]. destruct (vget r v) as [rv| |] eqn:Er; cbn [mbind res_bind]; [|reflexivity|reflexivity]. apply vget_ok_iff in Er.
    destruct rv as [w|]; cbn [runwrap mbind res_bind]; [|reflexivity]. rewrite <- IH.
    - destruct (mdfs fuel g w (vis', l, r)) as [[b [[vis2 l2] r2]]| |] eqn:Em; cbn [mbind res_bind fst snd]; [|reflexivity|reflexivity]. destruct b; [reflexivity|].
      apply mdfs_kept in Em as (_ & _ & _ & K4 & K5). cbn [fst snd] in *. destruct (K5 eq_refl) as [-> ->]. apply IHx. eapply vis_le_trans; eassumption.
    - lia.
    - intros Hw. assert (w ∈ waiting vis' r) as Hin by (apply elem_waiting; split; [exact Hw|eapply elem_of_list_lookup_2, Er]). pose proof (waiting_visit vis' r w Hin). pose proof (waiting_mono vis1 vis' r Hv'). lia. }
  apply HT, vis_le_refl.
Qed.
Definition room (n m : nat) : nat := S (Nat.min n (S m)).
Lemma mdfs_room g k k' u vis l r : room (length vis) (length r) <= k -> room (length vis) (length r) <= k' -> mdfs k g u (vis, l, r) = mdfs k' g u (vis, l, r).
Proof.
  intros Hk Hk'. assert (forall x, room (length vis) (length r) <= x -> mdfs x g u (vis, l, r) = mdfs (x + (k + k')) g u (vis, l, r)) as H.
  { intros x Hx. apply mdfs_same; [unfold room in Hx; lia|]. intros Hu. apply lookup_lt_Some in Hu. pose proof (waiting_left vis r u Hu). pose proof (waiting_right (<[u:=true]> vis) r). unfold room in Hx. lia. }
  assert (mdfs (k + k') g u (vis, l, r) = mdfs k g u (vis, l, r)) as <-.
  { symmetry. apply mdfs_same; [unfold room in Hk; lia|]. intros Hu. apply lookup_lt_Some in Hu. pose proof (waiting_left vis r u Hu). pose proof (waiting_right (<[u:=true]> vis) r). unfold room in Hk. lia. }
  rewrite Nat.add_comm. symmetry. apply mdfs_same; [unfold room in Hk'; lia|]. intros Hu. apply lookup_lt_Some in Hu. pose proof (waiting_left vis r u Hu). pose proof (waiting_right (<[u:=true]> vis) r). unfold room in Hk'. lia.
Qed.

Lemma rloop_eq {S R} (P : S -> Prop) (f f' : S -> res (S + R)) : (forall s, P s -> f s = f' s) -> (forall s s', P s -> f' s = Ok (inl s') -> P s') ->
  forall fuel s, P s -> rloop fuel f s = rloop fuel f' s.
Proof.
  intros H1 H2. induction fuel as [|fuel IH]; intros s Hs; [reflexivity|]. cbn [rloop]. rewrite (H1 s Hs). destruct (f' s) as [[s'|r]| |] eqn:E; cbn [mbind res_bind]; try reflexivity. apply IH. eapply H2; eassumption.
Qed.

Section Room.
  Context (n m k : nat) (Hk : room n m <= k).
  Definition sizes (st : mst) : Prop := length st.1.1 = n /\ length st.2 = m.
  Lemma mdfs_sizes fuel g u st x : sizes st -> mdfs fuel g u st = Ok x -> sizes x.2.
  Proof. intros [H1 H2] E. apply mdfs_kept in E as (K1 & _ & K3 & _). split; congruence. Qed.
  Lemma room_n : room n m <= S n.
  Proof. unfold room. lia. Qed.
  Lemma round_same g i s : sizes s.2 -> round_body_stack k g i s = round_body g i s.
  Proof.
    destruct s as [ok [[vis l] r]]. intros [H1 H2]. cbn [fst snd] in *. unfold round_body_stack, round_body. destruct (vget l i) as [[v|]| |]; cbn [mbind res_bind]; try reflexivity.
    rewrite (mdfs_room g k (S (length vis))); [reflexivity| |]; rewrite H1, H2; [exact Hk|apply room_n].
  Qed.
  Lemma round_sizes g i s s' : sizes s.2 -> round_body g i s = Ok s' -> sizes s'.2.
  Proof.
    destruct s as [ok [[vis l] r]]. intros Hs E. unfold round_body in E. apply rbind_ok_inv in E as (li & _ & E). destruct li as [v|]; [injection E as <-; exact Hs|].
    apply rbind_ok_inv in E as (x & Ex & E). injection E as <-. cbn [snd]. eapply mdfs_sizes; eassumption.
  Qed.
  Lemma solve_step_same g s : sizes s -> solve_step_stack k g s = solve_step g s.
  Proof.
    destruct s as [[vis l] r]. intros [H1 H2]. unfold solve_step_stack, solve_step. f_equal. apply (rfor_eq (fun s => sizes s.2)); [intros; apply round_same; assumption|intros x s s' _; apply round_sizes|].
    cbn [fst snd] in *. split; cbn [fst snd]; [rewrite replicate_length; exact H1|exact H2].
  Qed.
  Lemma solve_step_sizes g s o : sizes s -> solve_step g s = Ok o -> match o with inl s' | inr s' => sizes s' end.
  Proof.
    destruct s as [[vis l] r]. intros [H1 H2] E. unfold solve_step in E. apply rbind_ok_inv in E as ([ok s'] & E1 & E).
    assert (sizes s') as Hs'.
    { cbn [fst snd] in *. assert (sizes (false, (replicate (length vis) false, l, r)).2) as H0 by (split; cbn [fst snd]; [rewrite replicate_length; exact H1|exact H2]). clear E.
      change s' with ((ok, s').2). revert E1 H0. generalize (false, (replicate (length vis) false, l, r)) (ok, s'). generalize (range 0 (length l)). induction l0 as [|i is IH]; intros a b E H0; cbn [rfor] in E; [injection E as <-; exact H0|].
      apply rbind_ok_inv in E as (c & E1 & E). eapply IH; [exact E|]. eapply round_sizes; eassumption. }
    cbn [fst snd] in E. destruct ok; injection E as <-; exact Hs'.
  Qed.
  Definition bsizes (b : bm) : Prop := length (bm_vis b) = n /\ length (bm_r b) = m.
  Lemma solve_same b : bsizes b -> bm_solve_stack k b = bm_solve b.
  Proof.
    intros Hb. unfold bm_solve_stack, bm_solve. f_equal. apply (rloop_eq sizes); [intros; apply solve_step_same; assumption| |exact Hb]. intros s s' Hs E. exact (solve_step_sizes _ _ _ Hs E).
  Qed.
  Lemma solve_sizes b x : bsizes b -> bm_solve b = Ok x -> bsizes x.1.
  Proof.
    intros Hb E. unfold bm_solve in E. apply rbind_ok_inv in E as ([[vis l] r] & E1 & E). apply rbind_ok_inv in E as (ret & _ & E). injection E as <-. cbn [fst].
    assert (forall fuel s o, sizes s -> rloop fuel (solve_step (bm_g b)) s = Ok o -> sizes o) as H.
    { induction fuel as [|fuel IH]; intros s o Hs E0; cbn [rloop] in E0; [discriminate|]. destruct (solve_step (bm_g b) s) as [[s'|s']| |] eqn:E2; cbn [mbind res_bind] in E0; try discriminate E0.
      - eapply IH; [|exact E0]. exact (solve_step_sizes _ _ _ Hs E2).
      - injection E0 as <-. exact (solve_step_sizes _ _ _ Hs E2). }
    exact (H _ (bm_vis b, bm_l b, bm_r b) _ Hb E1).
  Qed.
  Lemma run_same ops : forall b, bsizes b -> run (bm_step_stack k) b ops = run bm_step b ops.
  Proof.
    induction ops as [|o ops IH]; intros b Hb; [reflexivity|]. cbn [run]. destruct o as [u v|]; cbn [bm_step_stack bm_step].
    - destruct (bm_add_edge b u v) as [b'| |] eqn:E; cbn [mbind res_bind]; [|reflexivity|reflexivity]. rewrite IH; [reflexivity|]. unfold bm_add_edge in E. apply rbind_ok_inv in E as (es & _ & E). apply rbind_ok_inv in E as (g & _ & E).
      injection E as <-. exact Hb.
    - rewrite (solve_same b Hb). destruct (bm_solve b) as [x| |] eqn:E; cbn [mbind res_bind]; [|reflexivity|reflexivity]. rewrite IH; [reflexivity|]. eapply solve_sizes; eassumption.
  Qed.
  Lemma history_same ops : run (bm_step_stack k) (bm_new n m) ops = run bm_step (bm_new n m) ops.
  Proof. apply run_same. split; cbn; apply replicate_length. Qed.
End Room.

(** ** Histories that need the room *)
Section Deep.
  Context (n m c : nat) (Hc : 1 <= c) (Hcn : c < n) (Hcm : c <= m).
  (** Left vertex j is tied to right j and right j - 1; left c to right c - 1 only *)
  Definition ties (j : nat) : list nat := if decide (j < c) then j :: (if decide (0 < j) then [j - 1] else []) else if decide (j = c) then [c - 1] else [].
  Context (g : list (list nat)) (l r : list (option nat)).
  Context (Hg : forall j, j < n -> g !! j = Some (ties j)) (Hl : forall j, j < n -> l !! j = Some (if decide (j < c) then Some j else None)) (Hr : forall j, j < c -> r !! j = Some (Some j)).

  Lemma ties_full j : j <= c -> find_free r (ties j) = Ok None.
  Proof.
    intros Hj. assert (forall es, (forall v, v ∈ es -> v < c) -> find_free r es = Ok None) as H.
    { induction es as [|v es IH]; intros H; [reflexivity|]. cbn [find_free]. rewrite (vget_ok _ _ _ (Hr v ltac:(apply H; left))). cbn [mbind res_bind]. apply IH. intros w Hw. apply H. right. exact Hw. }
    apply H. intros v. unfold ties. repeat case_decide; rewrite ?elem_of_cons, ?elem_of_nil; intros Hv; repeat destruct Hv as [->|Hv]; try lia; inversion Hv.
  Qed.
  (** The search from j when everything above is visited *)
  Lemma chain_deep : forall fuel j vis, j < c -> fuel <= S j -> length vis = n -> (forall x, x <= j -> vis !! x = Some false) -> mdfs fuel g j (vis, l, r) = Diverge.
  Proof.
    induction fuel as [|fuel IH]; intros j vis Hj Hf Hv Hvis; [reflexivity|]. cbn [mdfs]. rewrite (vget_ok _ _ _ (Hvis j ltac:(lia))). cbn [mbind res_bind]. rewrite vset_ok by lia. cbn [mbind res_bind].
    rewrite (vget_ok _ _ _ (Hg j ltac:(lia))). cbn [mbind res_bind]. rewrite ties_full by lia. cbn [mbind res_bind]. unfold ties. rewrite decide_True by exact Hj. cbn [try_edges snd].
    rewrite (vget_ok _ _ _ (Hr j Hj)). cbn [mbind res_bind runwrap]. destruct fuel as [|fuel]; [reflexivity|]. assert (mdfs (S fuel) g j (<[j:=true]> vis, l, r) = Ok (false, (<[j:=true]> vis, l, r))) as ->.
    { cbn [mdfs]. rewrite (vget_ok (<[j:=true]> vis) j true) by (apply list_lookup_insert; lia). reflexivity. }
    cbn [mbind res_bind fst snd]. rewrite decide_True by lia. cbn [try_edges snd]. rewrite (vget_ok _ _ _ (Hr (j - 1) ltac:(lia))). cbn [mbind res_bind runwrap].
    rewrite IH; [reflexivity|lia|lia|rewrite insert_length; exact Hv|]. intros x Hx. rewrite list_lookup_insert_ne by lia. apply Hvis. lia.
  Qed.
  Lemma chain_top fuel : fuel <= S c -> mdfs fuel g c (replicate n false, l, r) = Diverge.
  Proof.
    intros Hf. destruct fuel as [|fuel]; [reflexivity|]. cbn [mdfs]. rewrite (vget_ok _ _ _ (lookup_replicate_2 n false c Hcn)). cbn [mbind res_bind]. rewrite vset_ok by (rewrite replicate_length; exact Hcn).
    cbn [mbind res_bind]. rewrite (vget_ok _ _ _ (Hg c Hcn)). cbn [mbind res_bind]. rewrite ties_full by lia. cbn [mbind res_bind]. unfold ties. rewrite decide_False, decide_True by lia. cbn [try_edges snd].
    rewrite (vget_ok _ _ _ (Hr (c - 1) ltac:(lia))). cbn [mbind res_bind runwrap]. rewrite chain_deep; [reflexivity|lia|lia|rewrite insert_length, replicate_length; reflexivity|].
    intros x Hx. rewrite list_lookup_insert_ne by lia. apply lookup_replicate_2. lia.
  Qed.
  Lemma solve_deep k vis : k <= S c -> length vis = n -> length l = n -> bm_solve_stack k (BM g l r vis) = Diverge.
  Proof.
    intros Hk Hv Hln. unfold bm_solve_stack. cbn [bm_l bm_g bm_vis bm_r]. cbn [rloop]. assert (solve_step_stack k g (vis, l, r) = Diverge) as ->; [|reflexivity].
    unfold solve_step_stack. rewrite Hln, Hv. unfold range. rewrite Nat.sub_0_r. assert (seq 0 n = seq 0 (c + S (n - c - 1))) as -> by (f_equal; lia).
    rewrite seq_app, rfor_app. assert (rfor (seq 0 c) (round_body_stack k g) (false, (replicate n false, l, r)) = Ok (false, (replicate n false, l, r))) as ->.
    { assert (forall xs, (forall i, i ∈ xs -> i < c) -> rfor xs (round_body_stack k g) (false, (replicate n false, l, r)) = Ok (false, (replicate n false, l, r))) as H.
      { induction xs as [|i xs IH]; intros H; [reflexivity|]. cbn [rfor]. assert (i < c) as Hi by (apply H; left).
        assert (round_body_stack k g i (false, (replicate n false, l, r)) = Ok (false, (replicate n false, l, r))) as ->.
        { unfold round_body_stack. rewrite (vget_ok _ _ _ (Hl i ltac:(lia))), decide_True by exact Hi. reflexivity. }
        cbn [mbind res_bind]. apply IH. intros x Hx. apply H. right. exact Hx. }
      apply H. intros i Hi%elem_of_seq. lia. }
    cbn [mbind res_bind Nat.add seq rfor]. assert (round_body_stack k g c (false, (replicate n false, l, r)) = Diverge) as ->; [|reflexivity].
    unfold round_body_stack. rewrite (vget_ok _ _ _ (Hl c Hcn)), decide_False by lia. cbn [mbind res_bind]. rewrite chain_top by exact Hk. reflexivity.
  Qed.
End Deep.

Lemma upto_loop {S R} (f f' : S -> res (S + R)) : (forall s, upto (f s) (f' s)) -> forall fuel s, upto (rloop fuel f s) (rloop fuel f' s).
Proof.
  intros H. induction fuel as [|fuel IH]; intros s; [apply upto_refl|]. cbn [rloop]. apply upto_bind; [apply H|]. intros [s'|x]; [apply IH|apply upto_refl].
Qed.
Lemma solve_upto k j b : upto (bm_solve_stack k b) (bm_solve_stack (k + j) b).
Proof.
  unfold bm_solve_stack. apply upto_bind; [|intros [[vis l] r]; apply upto_refl]. apply upto_loop. intros [[vis l] r]. unfold solve_step_stack. apply upto_bind; [|intros x; apply upto_refl].
  apply upto_for. intros i [ok [[vis' l'] r']]. unfold round_body_stack. apply upto_same. intros [v|]; [apply upto_refl|]. apply upto_bind; [apply mdfs_upto|intros x; apply upto_refl].
Qed.
Lemma solve_upto_full n m k b : bsizes n m b -> upto (bm_solve_stack k b) (bm_solve b).
Proof. intros Hb. rewrite <- (solve_same n m (k + room n m) ltac:(lia) b Hb). apply solve_upto. Qed.

(** Adding edges one after the other *)
Lemma add_all k ps : forall g l r vis, (forall p, p ∈ ps -> p.1 < length g) ->
  exists g', length g' = length g /\ (forall x es, g !! x = Some es -> g' !! x = Some (es ++ map snd (filter (fun p => p.1 = x) ps))) /\
    forall ops, run (bm_step_stack k) (BM g l r vis) (map (fun p => BmEdge p.1 p.2) ps ++ ops) = '(b, outs) ← run (bm_step_stack k) (BM g' l r vis) ops; Ok (b, map (fun _ => None) ps ++ outs).
Proof.
  induction ps as [|[u v] ps IH]; intros g l r vis Hps.
  - exists g. split; [reflexivity|]. split; [intros x es Hx; rewrite app_nil_r; exact Hx|]. intros ops. cbn. destruct (run (bm_step_stack k) (BM g l r vis) ops) as [[b outs]| |]; reflexivity.
  - assert (u < length g) as Hu by (apply (Hps (u, v)); left). destruct (lookup_lt_is_Some_2 g u Hu) as [es0 Hes0].
    destruct (IH (<[u := es0 ++ [v]]> g) l r vis) as (g' & L & G & R); [intros p Hp; rewrite insert_length; apply Hps; right; exact Hp|]. exists g'. rewrite insert_length in L. split; [exact L|]. split.
    + intros x es Hx. destruct (decide (x = u)) as [->|Hne].
      * rewrite filter_cons_True by reflexivity. cbn [map snd]. rewrite (G u (es0 ++ [v])) by (apply list_lookup_insert; exact Hu). assert (es = es0) as -> by congruence. rewrite <- app_assoc. reflexivity.
      * rewrite filter_cons_False by (cbn; congruence). apply G. rewrite list_lookup_insert_ne by congruence. exact Hx.
    + intros ops. cbn [map app run fst snd]. cbn [bm_step_stack]. unfold bm_add_edge. cbn [bm_g bm_l bm_r bm_vis]. rewrite (vget_ok _ _ _ Hes0). cbn [mbind res_bind]. rewrite vset_ok by exact Hu. cbn [mbind res_bind].
      rewrite R. destruct (run (bm_step_stack k) (BM g' l r vis) ops) as [[b outs]| |]; reflexivity.
Qed.
Lemma pick (f : nat -> nat) c x : map snd (filter (fun p : nat * nat => p.1 = x) (map (fun i => (f i, i)) (seq 0 c))) = filter (fun i => f i = x) (seq 0 c).
Proof.
  induction (seq 0 c) as [|i is IH]; [reflexivity|]. cbn [map]. destruct (decide (f i = x)); [rewrite !filter_cons_True by (cbn; assumption); cbn; f_equal; exact IH|rewrite !filter_cons_False by (cbn; assumption); exact IH].
Qed.
Lemma pick_one (f : nat -> nat) c x i : (forall i j, f i = f j -> i = j) -> i < c -> f i = x -> filter (fun i => f i = x) (seq 0 c) = [i].
Proof.
  intros Hf Hi Hx. assert (NoDup (filter (fun i => f i = x) (seq 0 c))) as Hn by apply NoDup_filter, NoDup_seq.
  assert (forall y, y ∈ filter (fun i => f i = x) (seq 0 c) <-> y = i) as He.
  { intros y. rewrite elem_of_list_filter, elem_of_seq. split; [intros [H _]; apply Hf; congruence|intros ->; split; [exact Hx|lia]]. }
  destruct (filter (fun i => f i = x) (seq 0 c)) as [|a [|b q]].
  - exfalso. apply (elem_of_nil i), He. reflexivity.
  - f_equal. apply He. left.
  - exfalso. apply NoDup_cons in Hn as [Hn _]. apply Hn. assert (a = i) as -> by (apply He; left). assert (b = i) as -> by (apply He; right; left). left.
Qed.
Lemma pick_none (f : nat -> nat) c x : (forall i, i < c -> f i <> x) -> filter (fun i => f i = x) (seq 0 c) = [].
Proof.
  intros H. destruct (filter (fun i => f i = x) (seq 0 c)) as [|a q] eqn:E; [reflexivity|]. exfalso. assert (a ∈ filter (fun i => f i = x) (seq 0 c)) as Ha by (rewrite E; left).
  apply elem_of_list_filter in Ha as [H1 H2%elem_of_seq]. apply (H a); [lia|exact H1].
Qed.

Definition deep_ops (c : nat) : list bm_op :=
  map (fun p => BmEdge p.1 p.2) (map (fun i => (i, i)) (seq 0 c)) ++ BmSolve :: map (fun p => BmEdge p.1 p.2) (map (fun i => (S i, i)) (seq 0 c)) ++ [BmSolve].
Lemma deep_history n m c k : 1 <= c -> c < n -> c <= m -> k <= S c -> run (bm_step_stack k) (bm_new n m) (deep_ops c) = Diverge.
Proof.
  intros Hc Hcn Hcm Hk. unfold deep_ops, bm_new. destruct (add_all k (map (fun i => (i, i)) (seq 0 c)) (replicate n []) (replicate n None) (replicate m None) (replicate n false)) as (g1 & L1 & G1 & R1).
  { intros p (i & -> & Hi%elem_of_seq)%elem_of_list_fmap. rewrite replicate_length. cbn. lia. }
  rewrite R1. rewrite replicate_length in L1. set (b1 := BM g1 _ _ _).
  assert (forall j, j < n -> g1 !! j = Some (if decide (j < c) then [j] else [])) as G1'.
  { intros j Hj. rewrite (G1 j [] (lookup_replicate_2 n [] j Hj)). cbn [app]. rewrite (pick (fun i => i)). case_decide; [rewrite (pick_one (fun i => i) c j j) by auto; reflexivity|].
    rewrite (pick_none (fun i => i)); [reflexivity|]. intros i Hi ->. auto. }
  set (E := map (fun i => (i, i)) (seq 0 c)).
  assert (forall u v, (u, v) ∈ E <-> u < c /\ v = u) as HE.
  { intros u v. unfold E. split.
    - intros (i & [= -> ->] & Hi%elem_of_seq)%elem_of_list_fmap. lia.
    - intros [Hu ->]. apply elem_of_list_fmap. exists u. split; [reflexivity|]. apply elem_of_seq. lia. }
  assert (forall u v, (u, v) ∈ E <-> exists es, g1 !! u = Some es /\ v ∈ es) as HEg.
  { intros u v. rewrite HE. split.
    - intros [Hu ->]. exists [u]. split; [rewrite G1' by lia; rewrite decide_True by exact Hu; reflexivity|left].
    - intros (es & Hes & Hv). pose proof (lookup_lt_Some _ _ _ Hes) as Hu. rewrite G1' in Hes by lia. case_decide; injection Hes as <-; [apply elem_of_list_singleton in Hv as ->; auto|inversion Hv]. }
  assert (mok n m g1 (replicate n None) (replicate m None)) as Hok.
  { split; rewrite ?replicate_length; auto; intros x y Hx; apply lookup_replicate in Hx as [Hx _]; discriminate Hx. }
  cbn [run bm_step_stack]. destruct (solve_upto_full n m k b1) as [->| ->]; [split; cbn; apply replicate_length|reflexivity|].
  destruct (bm_solve_ok n m g1 L1 E HEg (replicate n None) (replicate m None) (replicate n false) (replicate_length _ _) Hok) as [[_ (u & es & v & Hu & Hv & Hm)]|(l & r & vis & Es & Hvis & Hok' & HM & [_ Hmax])].
  { exfalso. assert ((u, v) ∈ E) as Huv by (apply HEg; eauto). apply HE in Huv as [Hu1 ->]. lia. }
  fold b1 in Es. rewrite Es. cbn [mbind res_bind fst snd].
  assert (forall j, j < n -> l !! j = Some (if decide (j < c) then Some j else None)) as Hl.
  { assert (forall x y, l !! x = Some (Some y) -> x < c /\ y = x) as Hlx by (intros x y Hx; apply HE, HEg; exact (mk_e _ _ _ _ _ Hok' x y Hx)).
    assert (c <= length (matched l)) as Hcl.
    { replace c with (length E) at 1 by (unfold E; rewrite map_length, seq_length; reflexivity). apply Hmax. split; [auto|]. unfold E.
      split; rewrite <- list_fmap_compose; rewrite (list_fmap_ext _ (fun i => i)) by (intros; reflexivity); rewrite list_fmap_id; apply NoDup_seq. }
    assert (forall x, x < c -> x ∈ matched l) as Hall.
    { assert (matched l ⊆+ seq 0 c) as Hsub. { apply NoDup_submseteq; [apply NoDup_matched|]. intros x (y & Hy)%elem_of_matched. apply elem_of_seq. destruct (Hlx x y Hy). lia. }
      intros x Hx. apply (submseteq_Permutation_length_le _ _ ltac:(rewrite seq_length; exact Hcl)) in Hsub. rewrite Hsub. apply elem_of_seq. lia. }
    intros j Hj. case_decide as Hjc.
    - destruct (proj1 (elem_of_matched l j) (Hall j Hjc)) as [y Hy]. rewrite Hy. destruct (Hlx j y Hy) as [_ ->]. reflexivity.
    - destruct (lookup_lt_is_Some_2 l j) as [[y|] Hy]; [rewrite (mk_l _ _ _ _ _ Hok'); exact Hj| |exact Hy]. destruct (Hlx j y Hy). lia. }
  assert (forall j, j < c -> r !! j = Some (Some j)) as Hr.
  { intros j Hj. apply (mk_lr _ _ _ _ _ Hok'). rewrite Hl by lia. rewrite decide_True by exact Hj. reflexivity. }
  destruct (add_all k (map (fun i => (S i, i)) (seq 0 c)) g1 l r vis) as (g2 & L2 & G2 & R2).
  { intros p (i & -> & Hi%elem_of_seq)%elem_of_list_fmap. rewrite L1. cbn. lia. }
  rewrite R2. assert (forall j, j < n -> g2 !! j = Some (ties c j)) as G2'.
  { intros j Hj. rewrite (G2 j _ (G1' j Hj)). f_equal. rewrite (pick S). unfold ties. destruct (decide (0 < j)) as [H0|H0].
    - destruct (decide (j <= c)) as [Hle|Hgt].
      + rewrite (pick_one S c j (j - 1)) by lia. repeat case_decide; try lia; [reflexivity|]. subst. reflexivity.
      + rewrite pick_none by lia. repeat case_decide; try lia. reflexivity.
    - rewrite pick_none by lia. repeat case_decide; try lia. reflexivity. }
  cbn [run bm_step_stack]. rewrite (solve_deep n m c) by (auto; exact (mk_l _ _ _ _ _ Hok')). reflexivity.
Qed.
