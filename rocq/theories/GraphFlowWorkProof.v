(** Step counts of the flow algorithm. *)
From Verif Require Import Prelude Eff EffSpec IntModel DinicModel GraphWorkModel GraphWorkSpec GraphWorkProof.
Open Scope Z_scope.

(** Plain loops: an invariant at every turn and a property of the result, nothing about termination. *)
Lemma rloop_ok {S R} (I : S -> Prop) (Q : R -> Prop) (step : S -> res (S + R)) :
  (forall s o, I s -> step s = Ok o -> match o with inl s' => I s' | inr r => Q r end) ->
  forall fuel s r, I s -> rloop fuel step s = Ok r -> Q r.
Proof.
  intros H. induction fuel as [|fuel IH]; intros s r Hs; cbn [rloop]; [discriminate|].
  destruct (step s) as [[s'|r']| |] eqn:E; cbn [mbind res_bind]; [| |discriminate..].
  - apply IH. exact (H _ _ Hs E).
  - intros [= <-]. exact (H _ _ Hs E).
Qed.

Ltac bind_ok E := match type of E with
  | mbind _ ?m = Ok _ => let x := fresh "x" in let H := fresh "H" in destruct m as [x| |] eqn:H; cbn [mbind res_bind] in E; [|discriminate E..]
  end.

Lemma isum_set {A} (w : nat -> A -> nat) (l : list A) u x y : l !! u = Some x ->
  (isum (fun i => match <[u:=y]> l !! i with Some z => w i z | None => 0 end) (length (<[u:=y]> l)) + w u x =
   isum (fun i => match l !! i with Some z => w i z | None => 0 end) (length l) + w u y)%nat.
Proof.
  intros Hx. assert (Hu : (u < length l)%nat) by (eapply lookup_lt_Some; exact Hx). rewrite insert_length.
  pose proof (isum_change (fun i => match l !! i with Some z => w i z | None => 0%nat end)
    (fun i => match <[u:=y]> l !! i with Some z => w i z | None => 0%nat end) (length l) u Hu) as H.
  cbn beta in H. rewrite Hx, list_lookup_insert in H by exact Hu. apply H. intros i Hi. rewrite list_lookup_insert_ne by congruence. reflexivity.
Qed.

Section Flow.
  Context (T : ity) (g : list (list nat)).

  (** ** breadth-first search *)
  Definition hall (h : list Z) : Prop := forall u x, h !! u = Some x -> -1 <= x.
  Definition hw (u : nat) (x : Z) : nat := if x =? -1 then (1 + deg g u)%nat else 0%nat.
  Definition hpot (h : list Z) : nat := isum (fun u => match h !! u with Some x => hw u x | None => 0 end)%nat (length h).
  Definition qpot (q : list nat) : nat := sum_list_with (fun u => 1 + deg g u)%nat q.

  Lemma qpot_app q v : qpot (q ++ [v]) = (qpot q + (1 + deg g v))%nat.
  Proof. unfold qpot. rewrite sum_list_with_app. cbn. lia. Qed.

  (** a reached vertex *)
  Lemma reach_pot h u v hu d h' : hall h -> h !! u = Some hu -> iadd i32 hu 1 = Ok d -> h !! v = Some (-1) -> vset h v d = Ok h' ->
    hall h' /\ length h' = length h /\ (hpot h' + (1 + deg g v) = hpot h)%nat.
  Proof.
    intros Hh Hu Hd Hv Hs. specialize (Hh u hu Hu) as Hhu. unfold iadd, chk in Hd. case_match; [|discriminate]. injection Hd as <-.
    unfold vset in Hs. case_decide as Hl; [|discriminate]. injection Hs as <-. split; [|split].
    - intros w x Hw. destruct (decide (w = v)) as [->|]; [rewrite list_lookup_insert in Hw by exact Hl; injection Hw as <-; lia|].
      rewrite list_lookup_insert_ne in Hw by congruence. exact (Hh w x Hw).
    - apply insert_length.
    - unfold hpot. pose proof (isum_set hw h v (-1) (hu + 1) Hv) as E. unfold hw at 2 in E. rewrite (proj2 (Z.eqb_eq (-1) (-1)) eq_refl) in E.
      unfold hw at 3 in E. rewrite (proj2 (Z.eqb_neq (hu + 1) (-1))) in E by lia. lia.
  Qed.

  Lemma scan_cost e u t es : forall h q, hall h ->
    costs (length es + hpot h + qpot q) (fun x => hpot x.2.1 + qpot x.2.2)%nat (bfs_scanW e u t es h q) (bfs_scan e u t es h q).
  Proof.
    induction es as [|i es IH]; intros h q Hh; cbn [bfs_scanW bfs_scan length]; [apply spends_ret; cbn [fst snd]; lia|].
    eapply (costs_tick _ (length es + hpot h + qpot q)); [lia|]. apply spends_lift_bind. intros [v c] _. destruct (0 <? c); [|apply IH, Hh].
    apply spends_lift_bind. intros hv Hhv. apply vget_ok_iff in Hhv. destruct (Z.eqb_spec hv (-1)) as [->|]; [|apply IH, Hh].
    apply spends_lift_bind. intros hu Hhu. apply vget_ok_iff in Hhu. apply spends_lift_bind. intros d Hd. apply spends_lift_bind. intros h' Hs.
    destruct (reach_pot h u v hu d h' Hh Hhu Hd Hhv Hs) as (Hh' & _ & Hp). destruct (v =? t)%nat.
    - apply spends_ret. cbn [fst snd]. lia.
    - eapply spends_weak; [apply IH, Hh'| |auto]. rewrite qpot_app. lia.
  Qed.
  Lemma scan_keeps e u t es : forall h q x, hall h -> bfs_scan e u t es h q = Ok x -> hall x.2.1 /\ length x.2.1 = length h.
  Proof.
    induction es as [|i es IH]; intros h q x Hh; cbn [bfs_scan]; [intros [= <-]; auto|]. intros E. bind_ok E. destruct x0 as [v c].
    destruct (0 <? c); [|exact (IH _ _ _ Hh E)]. bind_ok E. destruct (Z.eqb_spec x0 (-1)) as [->|]; [|exact (IH _ _ _ Hh E)].
    bind_ok E. bind_ok E. bind_ok E. apply vget_ok_iff in H0, H1. destruct (reach_pot h u v _ _ _ Hh H1 H2 H0 H3) as (Hh' & Hl & _).
    destruct (v =? t)%nat; [injection E as <-; auto|]. destruct (IH _ _ _ Hh' E) as [? ?]. split; [assumption|congruence].
  Qed.

  Lemma bfs_step_cost e t s : hall s.1 -> costs (hpot s.1 + qpot s.2 + 1)
    (fun x => match x with inl s' => hpot s'.1 + qpot s'.2 + 1 | inr _ => 0 end)%nat (bfs_stepW e g t s) (bfs_step e g t s).
  Proof.
    destruct s as [h q]. intros Hh. cbn [fst snd] in *. unfold bfs_stepW, bfs_step. eapply (costs_tick _ (hpot h + qpot q)); [lia|].
    destruct q as [|u q]; [apply spends_ret; lia|]. apply spends_lift_bind. intros es Hes. apply vget_ok_iff in Hes.
    assert (Hd : deg g u = length es) by (unfold deg; rewrite Hes; reflexivity).
    apply (spends_bind one_step _ (fun x => hpot x.2.1 + qpot x.2.2 + 1)%nat).
    - intros w. pose proof (scan_cost e u t es h q Hh w) as H. destruct (bfs_scan e u t es h q) as [x| |]; [|exact H|exact H].
      destruct H as (w' & k & E & N & L). exists w', k. split; [exact E|]. split; [exact N|]. cbn [qpot sum_list_with] in *. fold (qpot q). lia.
    - intros [b [h' q']] _. cbn [fst snd]. destruct b; apply spends_ret; cbn [fst snd]; lia.
  Qed.
  Lemma bfs_step_keeps e t n s o : hall s.1 /\ length s.1 = n -> bfs_step e g t s = Ok o ->
    match o with inl s' => hall s'.1 /\ length s'.1 = n | inr r => length r.2 = n end.
  Proof.
    destruct s as [h q]. intros [Hh Hl]. cbn [fst snd] in *. unfold bfs_step. destruct q as [|u q]; [intros [= <-]; exact Hl|].
    intros E. bind_ok E. bind_ok E. destruct (scan_keeps _ _ _ _ _ _ _ Hh H0) as [H1 H2].
    destruct x0 as [b [h' q']]. cbn [fst snd] in *. destruct b; injection E as <-; cbn [fst snd]; [congruence|]. split; [assumption|congruence].
  Qed.
  Lemma start_hall n s h : vset (replicate n (-1)) s 0 = Ok h -> hall h /\ length h = n /\ (hpot h + qpot [s] <= n + length (concat g))%nat.
  Proof.
    unfold vset. case_decide as Hl; [|discriminate]. intros [= <-]. rewrite replicate_length in Hl. split; [|split].
    - intros u x Hu. apply list_lookup_insert_Some in Hu as [(_ & <- & _)|[_ Hu]]; [lia|]. apply lookup_replicate in Hu as [-> _]. lia.
    - rewrite insert_length. apply replicate_length.
    - unfold hpot. pose proof (isum_set hw (replicate n (-1)) s (-1) 0 ltac:(apply lookup_replicate_2; exact Hl)) as E.
      unfold hw at 2 in E. rewrite (proj2 (Z.eqb_eq (-1) (-1)) eq_refl) in E. unfold hw at 3 in E. rewrite (proj2 (Z.eqb_neq 0 (-1))) in E by lia.
      rewrite replicate_length in E.
      assert (E' : isum (fun i => match replicate n (-1) !! i with Some z => hw i z | None => 0%nat end) n = isum (fun u => 1 + deg g u)%nat n)
        by (apply isum_ext; intros i Hi; rewrite lookup_replicate_2 by exact Hi; reflexivity).
      rewrite isum_plus, isum_const in E'. pose proof (deg_sum g n). cbn [qpot sum_list_with]. lia.
  Qed.
  Lemma bfs_cost e h s t : costs (2 * length h + length (concat g) + 1) (fun _ => 0%nat) (bfsW e g h s t) (bfs e g h s t).
  Proof.
    unfold bfsW, bfs. eapply (costs_ticks _ _ (length h + length (concat g) + 1)); [lia|]. apply spends_lift_bind. intros h0 E0.
    destruct (start_hall _ _ _ E0) as (Hh & Hl & Hp).
    eapply spends_weak; [apply (spends_loop one_step (fun s => hall s.1 /\ length s.1 = length h) (fun s => hpot s.1 + qpot s.2 + 1)%nat (fun _ => 0%nat))| |auto].
    - intros x [Hx _]. apply bfs_step_cost, Hx.
    - intros x x' Hx E. exact (bfs_step_keeps e t (length h) x _ Hx E).
    - split; [exact Hh|exact Hl].
    - cbn [fst snd]. lia.
  Qed.
  Lemma bfs_keeps e h s t x : bfs e g h s t = Ok x -> length x.2 = length h.
  Proof.
    unfold bfs. intros E. bind_ok E. destruct (start_hall _ _ _ H) as (Hh & Hl & _). revert E.
    apply (rloop_ok (fun s => hall s.1 /\ length s.1 = length h) (fun r => length r.2 = length h)); [|split; assumption].
    intros y o Hy. exact (bfs_step_keeps e t (length h) y o Hy).
  Qed.

  (** ** depth-first search *)
  Context (h : list Z) (t : nat).

  (** What a call keeps: the answer is at most f, and the pointers of lower levels are left alone. *)
  Definition keeps (u : nat) (f : Z) (cur : list nat) (a : Z) (cur' : list nat) : Prop :=
    a <= f /\ length cur' = length cur /\ forall w x y, h !! u = Some x -> h !! w = Some y -> y < x -> cur' !! w = cur !! w.

  Lemma adm c v u b : (if 0 <? c then hv ← vget h v; hu ← vget h u; d ← iadd i32 hu 1; Ok (hv =? d) else Ok false) = Ok b ->
    b = true -> 0 < c /\ exists x, h !! u = Some x /\ h !! v = Some (x + 1).
  Proof.
    intros E ->. destruct (Z.ltb_spec 0 c); [|discriminate]. split; [assumption|]. bind_ok E. bind_ok E. bind_ok E. apply vget_ok_iff in H0, H1.
    unfold iadd, chk in H2. case_match; [|discriminate]. injection H2 as <-. injection E as E. apply Z.eqb_eq in E. subst. eauto.
  Qed.
  Lemma isub_val a b c : isub T a b = Ok c -> c = a - b.
  Proof. unfold isub, chk. case_match; [|discriminate]. intros [= <-]. reflexivity. Qed.

  Lemma vset_inv {A} (l : list A) i x l' : vset l i x = Ok l' -> (i < length l)%nat /\ l' = <[i:=x]> l.
  Proof. unfold vset. case_decide; [|discriminate]. intros [= <-]. auto. Qed.

  Lemma dfs_step_keeps recr u cur0 s o :
    (forall v f e cur x, 0 < f -> recr v f e cur = Ok x -> keeps v f cur x.1 x.2.2) ->
    0 < s.1.1.1 /\ s.2 !! u = Some s.1.1.2 /\ keeps u 0 cur0 0 s.2 -> dfs_step T recr g h u s = Ok o ->
    match o with inl s' => 0 < s'.1.1.1 /\ s'.2 !! u = Some s'.1.1.2 /\ keeps u 0 cur0 0 s'.2 | inr r => 0 <= r.1 /\ keeps u 0 cur0 0 r.2.2 end.
  Proof.
    destruct s as [[[r i] e] cur]. cbn [fst snd]. intros Hrec (Hr & Hi & Hk) E. unfold dfs_step in E. bind_ok E.
    destruct (i <? length x)%nat; [|injection E as <-; cbn [fst snd]; split; [lia|exact Hk]]. bind_ok E. bind_ok E. destruct x1 as [v c]. bind_ok E.
    assert (Hadv : forall r' cur1 cur2, 0 < r' -> keeps u 0 cur0 0 cur1 -> vset cur1 u (i + 1)%nat = Ok cur2 ->
      0 < r' /\ cur2 !! u = Some (i + 1)%nat /\ keeps u 0 cur0 0 cur2).
    { intros r' cur1 cur2 Hr' (_ & K1 & K2) Ev. apply vset_inv in Ev as [Hl ->]. split; [exact Hr'|]. split; [apply list_lookup_insert; exact Hl|].
      split; [lia|]. split; [rewrite insert_length; exact K1|]. intros w a b Ha Hb Hlt. rewrite list_lookup_insert_ne; [eauto|]. intros ->. rewrite Ha in Hb. injection Hb as ->. lia. }
    destruct x1 as [|].
    - destruct (adm c v u _ H2 eq_refl) as (Hc & xu & Hu & Hv). bind_ok E. destruct x1 as [a [e1 cur1]].
      destruct (Hrec v (Z.min r c) e cur _ ltac:(lia) H3) as (K1 & K2 & K3). cbn [fst snd] in *.
      assert (Hk1 : keeps u 0 cur0 0 cur1).
      { destruct Hk as (_ & L1 & L2). split; [lia|]. split; [congruence|]. intros w p q Hp Hq Hlt. rewrite Hp in Hu. injection Hu as ->.
        rewrite (K3 w (xu + 1) q Hv Hq ltac:(lia)). eapply L2; eassumption. }
      do 7 bind_ok E. apply isub_val in H10. destruct (Z.eqb_spec x7 0); [injection E as <-; cbn [fst snd]; split; [lia|exact Hk1]|].
      bind_ok E. injection E as <-. cbn [fst snd]. apply (Hadv x7 cur1 x8); [lia|exact Hk1|assumption].
    - bind_ok E. injection E as <-. cbn [fst snd]. apply (Hadv r cur x1); assumption.
  Qed.

  Lemma fdfs_keeps fuel : forall u f e cur x, 0 < f -> fdfs fuel T g h t u f e cur = Ok x -> keeps u f cur x.1 x.2.2.
  Proof.
    induction fuel as [|fuel IH]; intros u f e cur x Hf; cbn [fdfs]; [discriminate|]. destruct (u =? t)%nat.
    { intros [= <-]. cbn [fst snd]. split; [lia|]. auto. }
    intros E. bind_ok E. bind_ok E. bind_ok E. bind_ok E. injection E as <-. apply isub_val in H2. apply vget_ok_iff in H. cbn [fst snd].
    revert H1. intros H1. apply (rloop_ok (fun s => 0 < s.1.1.1 /\ s.2 !! u = Some s.1.1.2 /\ keeps u 0 cur 0 s.2) (fun r => 0 <= r.1 /\ keeps u 0 cur 0 r.2.2)) in H1.
    - destruct H1 as (R1 & _ & K2 & K3). split; [lia|]. split; assumption.
    - intros s o. apply dfs_step_keeps. intros. eapply IH; eassumption.
    - cbn [fst snd]. split; [exact Hf|]. split; [exact H|]. split; [lia|]. auto.
  Qed.

  (** edges not yet passed over *)
  Definition rw (u : nat) (i : nat) : nat := deg g u - i.
  Definition rem (cur : list nat) : nat := isum (fun u => match cur !! u with Some i => rw u i | None => 0 end)%nat (length cur).
  Context (K : nat).

  Lemma rem_adv cur u i cur' : cur !! u = Some i -> (i < deg g u)%nat -> vset cur u (i + 1)%nat = Ok cur' -> (rem cur' + 1 = rem cur)%nat.
  Proof.
    intros Hi Hd Ev. apply vset_inv in Ev as [_ ->]. pose proof (isum_set rw cur u i (i + 1)%nat Hi) as E. unfold rem. unfold rw at 2 4 in E. lia.
  Qed.

  Lemma dfs_step_cost recW recr F u s : (2 * F + 1 <= K)%nat ->
    (forall v f e cur, 0 < f -> costs (K * rem cur + 2 * F) (fun x => K * rem x.2.2 + (if (x.1 =? f)%Z then 0 else 2 * F - 2))%nat (recW v f e cur) (recr v f e cur)) ->
    (forall v f e cur x, 0 < f -> recr v f e cur = Ok x -> keeps v f cur x.1 x.2.2) ->
    0 < s.1.1.1 /\ s.2 !! u = Some s.1.1.2 ->
    costs (K * rem s.2 + 2 * F + 1) (fun x => match x with inl s' => K * rem s'.2 + 2 * F + 1 | inr r => K * rem r.2.2 + (if (r.1 =? 0)%Z then 0 else 2 * F) end)%nat
      (dfs_stepW T recW g h u s) (dfs_step T recr g h u s).
  Proof.
    destruct s as [[[r i] e] cur]. cbn [fst snd]. intros HK Hrec Hkp (Hr & Hi). unfold dfs_stepW, dfs_step.
    eapply (costs_tick _ (K * rem cur + 2 * F)); [lia|]. apply spends_lift_bind. intros js Hjs. apply vget_ok_iff in Hjs.
    assert (Hd : deg g u = length js) by (unfold deg; rewrite Hjs; reflexivity).
    destruct (Nat.ltb_spec i (length js)) as [Hlt|]; [|apply spends_ret; cbn [fst snd]; destruct (r =? 0); lia].
    apply spends_lift_bind. intros j _. apply spends_lift_bind. intros [v c] _. apply spends_lift_bind. intros b Hb. destruct b.
    - destruct (adm c v u _ Hb eq_refl) as (Hc & xu & Hu & Hv).
      eapply spends_bind; [apply Hrec; lia|]. intros [a [e1 cur1]] Ey. destruct (Hkp v (Z.min r c) e cur _ ltac:(lia) Ey) as (K1 & _ & K3). cbn [fst snd] in *.
      assert (Hi1 : cur1 !! u = Some i) by (rewrite (K3 u (xu + 1) xu Hv Hu ltac:(lia)); exact Hi).
      do 7 (apply spends_lift_bind; intros ? ?).
      match goal with H : isub T r a = Ok _ |- _ => apply isub_val in H; subst end.
      destruct (Z.eqb_spec (r - a) 0) as [Hz|Hz].
      + apply spends_ret. cbn [fst snd]. rewrite (proj2 (Z.eqb_eq (r - a) 0) Hz). destruct (a =? Z.min r c); lia.
      + apply spends_lift_bind. intros cur2 E2. apply spends_ret. cbn [fst snd]. pose proof (rem_adv cur1 u i cur2 Hi1 ltac:(lia) E2) as Hadv.
        rewrite <- Hadv. destruct (a =? Z.min r c); lia.
    - apply spends_lift_bind. intros cur2 E2. apply spends_ret. cbn [fst snd]. pose proof (rem_adv cur u i cur2 Hi ltac:(lia) E2) as Hadv. rewrite <- Hadv. lia.
  Qed.

  Lemma fdfs_cost fuel : (2 * fuel <= K)%nat -> forall u f e cur, 0 < f ->
    costs (K * rem cur + 2 * fuel) (fun x => K * rem x.2.2 + (if (x.1 =? f)%Z then 0 else 2 * fuel - 2))%nat (fdfsW fuel T g h t u f e cur) (fdfs fuel T g h t u f e cur).
  Proof.
    induction fuel as [|fuel IH]; intros HK u f e cur Hf; cbn [fdfsW fdfs]; [apply costs_diverge|].
    eapply (costs_tick _ (K * rem cur + 2 * fuel + 1)); [lia|]. destruct (u =? t)%nat.
    { apply spends_ret. cbn [fst snd]. rewrite (proj2 (Z.eqb_eq f f) eq_refl). lia. }
    apply spends_lift_bind. intros i Hi. apply vget_ok_iff in Hi. apply spends_lift_bind. intros js _.
    assert (IH' := IH ltac:(lia)).
    eapply (spends_bind one_step _ (fun r => K * rem r.2.2 + (if (r.1 =? 0)%Z then 0 else 2 * fuel))%nat).
    - apply (spends_loop one_step (fun s => 0 < s.1.1.1 /\ s.2 !! u = Some s.1.1.2) (fun s => K * rem s.2 + 2 * fuel + 1)%nat).
      + intros s Hs. apply dfs_step_cost; [lia|exact IH'|intros; eapply fdfs_keeps; eassumption|exact Hs].
      + intros s s' [Hs1 Hs2] E. destruct (dfs_step_keeps _ u s.2 s _ ltac:(intros; eapply fdfs_keeps; eassumption) ltac:(split; [exact Hs1|split; [exact Hs2|split; [lia|auto]]]) E) as (R1 & R2 & _).
        split; assumption.
      + cbn [fst snd]. split; assumption.
    - intros x _. apply spends_lift_bind. intros a Ha. apply isub_val in Ha. apply spends_ret. cbn [fst snd].
      destruct (Z.eqb_spec x.1 0); destruct (Z.eqb_spec a f); lia.
  Qed.
End Flow.

(** ** phases and histories *)
Definition dshape (n M : nat) (d : dinic) : Prop :=
  dn_n d = n /\ length (dn_g d) = n /\ length (dn_h d) = n /\ length (dn_cur d) = n /\ length (concat (dn_g d)) = M.

Lemma rem_start g n : (rem g (replicate n 0%nat) <= length (concat g))%nat.
Proof.
  unfold rem. rewrite replicate_length. rewrite (isum_ext _ (deg g)); [apply deg_sum|]. intros i Hi. rewrite lookup_replicate_2 by exact Hi. unfold rw. lia.
Qed.

Lemma flow_step_cost T n M s t x : 0 < it_max T -> dshape n M x.2 ->
  costs (5 * n + 6 + (2 * n + 5) * M) (fun _ => 0%nat) (flow_stepW T s t x) (flow_step T s t x).
Proof.
  intros HT. destruct x as [ans d]. cbn [snd]. intros (_ & Hg & Hh & Hc & HM). unfold flow_stepW, flow_step.
  eapply (costs_tick _ (2 * n + M + 1 + (n + (2 * (n + 2) * M + 2 * (n + 2))))); [lia|].
  eapply (spends_part_bind one_step (2 * n + M + 1) _ (n + (2 * (n + 2) * M + 2 * (n + 2)))); [|lia|].
  { eapply spends_weak; [apply bfs_cost|lia|auto]. }
  intros [b h] _. destruct b; [|apply spends_ret; lia]. rewrite Hc, Hg. eapply costs_ticks; [reflexivity|].
  apply (spends_bind one_step _ (fun _ => 0%nat)).
  - eapply spends_weak; [apply (fdfs_cost T (dn_g d) h t (2 * (n + 2)) (S (S n))); [lia|exact HT]| |intros; apply Nat.le_0_l].
    pose proof (Nat.mul_le_mono_l _ _ (2 * (n + 2)) (rem_start (dn_g d) n)). lia.
  - intros [a [e cur]] _. apply spends_lift_bind. intros ans' _. apply spends_ret. lia.
Qed.
Lemma flow_step_keeps T n M s t x o : 0 < it_max T -> dshape n M x.2 -> flow_step T s t x = Ok o ->
  match o with inl y => dshape n M y.2 | inr y => dshape n M y.2 end.
Proof.
  intros HT. destruct x as [ans d]. cbn [snd]. intros (Hn & Hg & Hh & Hc & HM) E. unfold flow_step in E. bind_ok E. destruct x as [b h].
  apply bfs_keeps in H. cbn [snd] in H. destruct b.
  - bind_ok E. destruct x as [a [e cur]]. bind_ok E. injection E as <-. apply fdfs_keeps in H0; [|exact HT]. cbn [fst snd] in H0.
    destruct H0 as (_ & Hl & _). rewrite replicate_length in Hl. unfold dshape. cbn [snd dn_n dn_g dn_h dn_cur]. repeat split; congruence.
  - injection E as <-. unfold dshape. cbn [snd dn_n dn_g dn_h dn_cur]. repeat split; congruence.
Qed.

Lemma max_flow_cost T n M d s t : 0 < it_max T -> dshape n M d ->
  costs ((n + 2) * (5 * n + 6 + (2 * n + 5) * M)) (fun _ => 0%nat) (dn_max_flowW T d s t) (dn_max_flow T d s t).
Proof.
  intros HT Hd. unfold dn_max_flowW, dn_max_flow. apply spends_lift_bind. intros _ _. apply spends_lift_bind. intros _ _.
  apply (spends_bind one_step _ (fun _ => 0%nat)); [|intros x _; apply spends_ret; lia]. pose proof Hd as (-> & _). replace (n + 2)%nat with (S (S n)) by lia.
  apply (costs_loop_fuel (fun x => dshape n M x.2)); [| |exact Hd].
  - intros x Hx. apply flow_step_cost; assumption.
  - intros x x' Hx E. exact (flow_step_keeps T n M s t x _ HT Hx E).
Qed.
Lemma max_flow_keeps T n M d s t x : 0 < it_max T -> dshape n M d -> dn_max_flow T d s t = Ok x -> dshape n M x.1.
Proof.
  intros HT Hd E. unfold dn_max_flow in E. bind_ok E. bind_ok E. bind_ok E. injection E as <-. cbn [fst].
  revert H1. apply (rloop_ok (fun x => dshape n M x.2) (fun x => dshape n M x.2)); [|exact Hd]. intros y o Hy E. exact (flow_step_keeps T n M s t y o HT Hy E).
Qed.
Lemma add_edge_keeps n M d u v c d' : dshape n M d -> dn_add_edge d u v c = Ok d' -> dshape n (M + 2) d'.
Proof.
  intros (Hn & Hg & Hh & Hc & HM) E. unfold dn_add_edge in E. bind_ok E. bind_ok E. bind_ok E. bind_ok E. injection E as <-.
  apply vget_ok_iff in H, H1. apply vset_inv in H0 as [Hu ->]. apply vset_inv in H2 as [Hv ->]. unfold dshape. cbn [dn_n dn_g dn_h dn_cur].
  rewrite !insert_length. repeat split; try assumption. pose proof (concat_insert_length (dn_g d) u x (x ++ [length (dn_e d)]) H) as L1.
  pose proof (concat_insert_length (<[u:=x ++ [length (dn_e d)]]> (dn_g d)) v x1 (x1 ++ [length (dn_e d ++ [(v, c)])]) H1) as L2. rewrite (app_length x) in L1. rewrite (app_length x1) in L2. cbn [length] in L1, L2. lia.
Qed.

Lemma dn_history_cost T n E ops : 0 < it_max T -> forall M d, dshape n M d -> (M + 2 * arcs ops <= 2 * E)%nat ->
  costs (flows ops * dinic_steps n E) (fun _ => 0%nat) (erun (dn_stepW T) d ops) (ArraySpec.run (dn_step T) d ops).
Proof.
  intros HT. induction ops as [|o ops IH]; intros M d Hd HM; cbn [erun ArraySpec.run]; [apply spends_ret; lia|].
  assert (Hcont : forall c (x : dinic * option Z), costs c (fun _ => 0%nat) (erun (dn_stepW T) x.1 ops) (ArraySpec.run (dn_step T) x.1 ops) ->
    costs c (fun _ => 0%nat) (let '(s, out) := x in '(s, outs) <* erun (dn_stepW T) s ops ;* eret (s, out :: outs))
      (let '(s, out) := x in '(s, outs) ← ArraySpec.run (dn_step T) s ops; Ok (s, out :: outs))).
  { intros c [s out] H. apply (spends_bind one_step _ (fun _ => 0%nat)); [exact H|]. intros [s' outs] _. apply spends_ret. lia. }
  destruct o as [u v c|s t]; cbn [flows arcs dn_step dn_stepW] in *.
  - apply (spends_bind one_step _ (fun _ => (flows ops * dinic_steps n E)%nat)).
    + apply spends_lift_bind. intros d' _. apply spends_ret. lia.
    + intros [d' out] Ex. bind_ok Ex. injection Ex as <- <-. apply (Hcont _ (x, None)). cbn [fst].
      apply (IH (M + 2)%nat); [eapply add_edge_keeps; eassumption|lia].
  - eapply (spends_part_bind one_step (dinic_steps n E) _ (flows ops * dinic_steps n E)); [|lia|].
    + apply (spends_bind one_step _ (fun _ => 0%nat)); [|intros x _; apply spends_ret; lia].
      eapply spends_weak; [apply (max_flow_cost T n M d s t HT Hd)| |auto]. unfold dinic_steps. apply Nat.mul_le_mono_l.
      assert ((2 * n + 5) * M <= (2 * n + 5) * (2 * E))%nat by (apply Nat.mul_le_mono_l; lia). lia.
    + intros [d' out] Ex. bind_ok Ex. injection Ex as <- <-. apply (Hcont _ (x.1, Some x.2)). cbn [fst].
      apply (IH M); [eapply max_flow_keeps; eassumption|exact HM].
Qed.
Lemma dn_new_shape n : dshape n 0 (dn_new n).
Proof.
  unfold dshape, dn_new. cbn [dn_n dn_g dn_h dn_cur]. rewrite !replicate_length. repeat split. induction n as [|n IH]; [reflexivity|exact IH].
Qed.
Close Scope Z_scope.

(** From credits to the statement *)
Lemma costs_within {A} c q (m : eff nat A) r : costs c q m r -> within m r c.
Proof.
  intros H w. specialize (H w). destruct r as [a| |]; [|exact H|exact H]. destruct H as (w' & k & E & N & L). exists k.
  rewrite <- (nsteps_one _ _ _ N). split; [exact E|lia].
Qed.
