(** Tarjan's algorithm: the exact number of steps. *)
From stdpp Require Import relations.
From Verif Require Import Prelude Eff IntModel SccModel SccSpec DinicProof SccProof GraphWorkModel AhoWorkSpec AhoWorkProof.
From Verif Require GraphWorkProof.
Open Scope Z_scope.

(** A loop whose turns cost k and what the measure grows by, under an invariant *)
Lemma costs_for_inv {A S} (I : S -> Prop) (mu : S -> nat) (k : nat) (xs : list A) (bodyW : A -> S -> eff nat S) body :
  (forall x s, x ∈ xs -> I s -> costs (bodyW x s) (body x s) (fun s' => k + (mu s' - mu s))%nat /\ forall s', body x s = Ok s' -> I s' /\ (mu s <= mu s')%nat) ->
  forall s, I s -> costs (efor xs bodyW s) (rfor xs body s) (fun s' => length xs * k + (mu s' - mu s))%nat /\ forall s', rfor xs body s = Ok s' -> I s' /\ (mu s <= mu s')%nat.
Proof.
  induction xs as [|x xs IH]; intros H s Hs; cbn [efor rfor].
  - split; [eapply costs_ext; [apply costs_ret|]; intros a [= <-]; cbn; lia|]. intros s' [= <-]. split; [exact Hs|lia].
  - destruct (H x s ltac:(left) Hs) as [H1 H2]. assert (H' := fun y t Hy => H y t (elem_of_list_further _ _ _ Hy)). specialize (IH H'). split.
    + eapply costs_bind; [exact H1|]. intros s1 E1. destruct (H2 s1 E1) as [I1 M1]. destruct (IH s1 I1) as [C1 M2]. eexists. split; [exact C1|]. intros s2 E2. destruct (M2 s2 E2) as [_ M3].
      cbn [length]. lia.
    + intros s' E. apply rbind_ok_inv in E as (s1 & E1 & E). destruct (H2 s1 E1) as [I1 M1]. destruct (IH s1 I1) as [_ M2]. destruct (M2 s' E) as [I2 M3]. split; [exact I2|lia].
Qed.

Section Scc.
  Context (g : list (list nat)).
  Notation deg := (GraphWorkProof.deg g).
  Notation isum := GraphWorkProof.isum.
  (** Sum of f over the vertices seen *)
  Definition seen (f : nat -> nat) (ord : list Z) : nat := isum (fun u => match ord !! u with Some x => if x =? -1 then 0%nat else f u | None => 0%nat end) (length ord).
  Definition mu (st : tj) : nat := (seen (fun u => 1 + deg u)%nat (tj_ord st) + length (concat (tj_comp st)))%nat.
  Definition ok (st : tj) : Prop := 0 <= tj_pos st /\ seen (fun _ => 1%nat) (tj_ord st) = (length (tj_stk st) + length (concat (tj_comp st)))%nat.

  Lemma seen_insert f ord u p : 0 <= p -> ord !! u = Some (-1) -> seen f (<[u := p]> ord) = (seen f ord + f u)%nat.
  Proof.
    intros Hp Hu. pose proof (lookup_lt_Some _ _ _ Hu) as Hl. unfold seen. rewrite insert_length.
    pose proof (GraphWorkProof.isum_change (fun x => match ord !! x with Some y => if y =? -1 then 0%nat else f x | None => 0%nat end)
      (fun x => match <[u := p]> ord !! x with Some y => if y =? -1 then 0%nat else f x | None => 0%nat end) (length ord) u Hl) as H.
    cbn beta in H. rewrite list_lookup_insert, Hu in H by exact Hl. rewrite (proj2 (Z.eqb_neq p (-1))) in H by lia. rewrite (proj2 (Z.eqb_eq (-1) (-1)) eq_refl) in H.
    assert (H' := H ltac:(intros i Hi; rewrite list_lookup_insert_ne by congruence; reflexivity)). clear H. lia.
  Qed.
  Lemma enter_mu u st st' : ok st -> tj_ord st !! u = Some (-1) -> tj_enter u st = Ok st' -> ok st' /\ mu st' = (mu st + 1 + deg u)%nat.
  Proof.
    intros [Hp Hs] Hu E. unfold tj_enter in E. apply rbind_ok_inv in E as (ord & E1 & E). apply rbind_ok_inv in E as (low & _ & E). apply rbind_ok_inv in E as (pos & E2 & E).
    apply rbind_ok_inv in E as (ons & _ & E). injection E as <-. unfold vset in E1. case_decide as Hl; [|discriminate]. injection E1 as <-.
    assert (0 <= pos) as Hp'. { unfold iadd, chk in E2. case_match; [|discriminate]. injection E2 as <-. lia. }
    unfold ok, mu. cbn [tj_pos tj_ord tj_stk tj_comp length]. rewrite !seen_insert by assumption. split; [split; [exact Hp'|lia]|lia].
  Qed.
  Lemma pop_exact u : forall stk ons comp, costs (pop_compW u stk ons comp) (pop_comp u stk ons comp) (fun x => length x.2 - length comp)%nat /\
    forall x, pop_comp u stk ons comp = Ok x -> (length comp < length x.2)%nat /\ (length x.2 + length x.1.1 = length comp + length stk)%nat.
  Proof.
    induction stk as [|v stk IH]; intros ons comp; cbn [pop_compW pop_comp]; [split; [intros w; reflexivity|discriminate]|]. split.
    - eapply (costs_tick _ _ _ (fun x => length x.2 - length comp - 1)%nat).
      + apply costs_lift_bind. intros ons' _. destruct (u =? v)%nat.
        * eapply costs_ext; [apply costs_ret|]. intros a [= <-]. cbn [snd]. rewrite app_length. cbn [length]. lia.
        * destruct (IH ons' (comp ++ [v])) as [C1 _]. eapply costs_ext; [exact C1|]. intros a _. rewrite app_length. cbn [length]. lia.
      + intros x E. apply rbind_ok_inv in E as (ons' & _ & E). destruct (u =? v)%nat; [injection E as <-; cbn [snd]; rewrite app_length; cbn [length]; lia|].
        destruct (IH ons' (comp ++ [v])) as [_ H]. destruct (H x E) as [H1 _]. rewrite app_length in H1. cbn [length] in H1. lia.
    - intros x E. apply rbind_ok_inv in E as (ons' & _ & E). destruct (u =? v)%nat; [injection E as <-; cbn [fst snd]; rewrite app_length; cbn [length]; lia|].
      destruct (IH ons' (comp ++ [v])) as [_ H]. destruct (H x E) as [H1 H2]. rewrite app_length in H1, H2. cbn [length] in *. lia.
  Qed.
  Lemma leave_exact u st : ok st -> costs (tj_leaveW u st) (tj_leave u st) (fun st' => mu st' - mu st)%nat /\ forall st', tj_leave u st = Ok st' -> ok st' /\ (mu st <= mu st')%nat.
  Proof.
    intros Hs. destruct (pop_exact u (tj_stk st) (tj_ons st) []) as [C1 P]. unfold tj_leaveW, tj_leave. split.
    - apply costs_lift_bind. intros lu _. apply costs_lift_bind. intros ou _. destruct (lu =? ou); [|eapply costs_ext; [apply costs_ret|]; intros a [= <-]; lia].
      eapply costs_bind; [exact C1|]. intros [[stk ons] comp] E. exists (fun _ => 0%nat). split; [apply costs_ret|]. intros b [= <-]. unfold mu. cbn [tj_ord tj_comp]. rewrite concat_app, app_length.
      cbn [concat snd length]. rewrite app_nil_r. lia.
    - intros st' E. apply rbind_ok_inv in E as (lu & _ & E). apply rbind_ok_inv in E as (ou & _ & E). destruct (lu =? ou); [|injection E as <-; split; [exact Hs|lia]].
      apply rbind_ok_inv in E as ([[stk ons] comp] & E1 & E). injection E as <-. destruct (P _ E1) as [_ P2]. cbn [fst snd length] in P2. destruct Hs as [Hp Hc]. unfold ok, mu.
      cbn [tj_pos tj_ord tj_stk tj_comp]. rewrite concat_app, app_length. cbn [concat]. rewrite app_nil_r. split; [split; [exact Hp|lia]|lia].
  Qed.
  Lemma tdfs_exact fuel : forall u st, ok st -> tj_ord st !! u = Some (-1) -> costs (tdfsW fuel g u st) (tdfs fuel g u st) (fun st' => mu st' - mu st)%nat /\
    forall st', tdfs fuel g u st = Ok st' -> ok st' /\ (mu st <= mu st')%nat.
  Proof.
    induction fuel as [|fuel IH]; intros u st Hs Hu; cbn [tdfsW tdfs]; [split; [intros w; reflexivity|discriminate]|].
    assert (forall es st1, ok st1 -> costs (efor es (edge_bodyW (tdfsW fuel g) u) st1) (rfor es (edge_body (tdfs fuel g) u) st1) (fun s' => length es * 1 + (mu s' - mu st1))%nat /\
      forall s', rfor es (edge_body (tdfs fuel g) u) st1 = Ok s' -> ok s' /\ (mu st1 <= mu s')%nat) as HE.
    { intros es. apply costs_for_inv. intros v s _ Is. unfold edge_bodyW, edge_body.
      assert (forall o, tj_ord s !! v = Some o -> costs (if o =? -1 then tdfsW fuel g v s else eret s) (if o =? -1 then tdfs fuel g v s else Ok s) (fun s' => mu s' - mu s)%nat /\
        forall s', (if o =? -1 then tdfs fuel g v s else Ok s) = Ok s' -> ok s' /\ (mu s <= mu s')%nat) as HR.
      { intros o Ho. destruct (Z.eqb_spec o (-1)) as [->|]; [apply IH; assumption|]. split; [eapply costs_ext; [apply costs_ret|]; intros a [= <-]; lia|]. intros s' [= <-]. split; [exact Is|lia]. }
      assert (forall (b : bool) s1 s2, (if b then lu ← vget (tj_low s1) u; lv ← vget (tj_low s1) v; low ← vset (tj_low s1) u (Z.min lu lv);
          Ok (TJ (tj_pos s1) (tj_ons s1) low (tj_ord s1) (tj_stk s1) (tj_comp s1)) else Ok s1) = Ok s2 -> ok s1 -> ok s2 /\ mu s2 = mu s1) as HB.
      { intros b s1 s2 E O1. destruct b; [|injection E as <-; auto]. apply rbind_ok_inv in E as (lu & _ & E). apply rbind_ok_inv in E as (lv & _ & E). apply rbind_ok_inv in E as (low & _ & E).
        injection E as <-. auto. }
      split.
      - eapply (costs_tick _ _ _ (fun s' => mu s' - mu s)%nat); [|lia]. apply costs_lift_bind. intros o Ho. apply vget_ok_iff in Ho. destruct (HR o Ho) as [R1 R2].
        eapply costs_bind; [exact R1|]. intros s1 E1. destruct (R2 s1 E1) as [O1 M1]. exists (fun _ => 0%nat). split.
        + apply costs_lift_bind. intros b _. destruct b; [|apply costs_ret]. apply costs_lift_bind. intros lu _. apply costs_lift_bind. intros lv _. apply costs_lift_bind. intros low _. apply costs_ret.
        + intros s2 E2. apply rbind_ok_inv in E2 as (b & _ & E2). destruct (HB b s1 s2 E2 O1) as [_ ->]. lia.
      - intros s' E. apply rbind_ok_inv in E as (o & Ho & E). apply vget_ok_iff in Ho. apply rbind_ok_inv in E as (s1 & E1 & E). destruct (HR o Ho) as [_ R2]. destruct (R2 s1 E1) as [O1 M1].
        apply rbind_ok_inv in E as (b & _ & E). destruct (HB b s1 s' E O1) as [O2 ->]. auto. }
    split.
    - destruct (tj_enter u st) as [st1| |] eqn:E1; [|intros w; reflexivity|intros w; reflexivity]. destruct (enter_mu u st st1 Hs Hu E1) as [O1 M1].
      assert (forall st', (es ← vget g u; st ← rfor es (edge_body (tdfs fuel g) u) st1; tj_leave u st) = Ok st' -> (mu st1 <= mu st')%nat) as HM.
      { intros st' E. apply rbind_ok_inv in E as (es & _ & E). apply rbind_ok_inv in E as (st2 & E2 & E). destruct (HE es st1 O1) as [_ H2]. destruct (H2 _ E2) as [O2 M2].
        destruct (leave_exact u st2 O2) as [_ H3]. destruct (H3 _ E) as [_ M3]. lia. }
      eapply (costs_tick _ _ _ (fun st' => deg u + (mu st' - mu st1))%nat); [|cbn [mbind res_bind]; intros st' E; specialize (HM st' E); lia].
      apply costs_lift_bind. intros st2 [= <-]. apply costs_lift_bind. intros es Hes. apply vget_ok_iff in Hes. assert (deg u = length es) as -> by (unfold GraphWorkProof.deg; rewrite Hes; reflexivity).
      destruct (HE es st1 O1) as [C2 H2]. eapply costs_bind; [exact C2|]. intros st2 E2. destruct (H2 _ E2) as [O2 M2]. destruct (leave_exact u st2 O2) as [C3 H3].
      eexists. split; [exact C3|]. intros b Eb. destruct (H3 _ Eb) as [_ M3]. lia.
    - intros st' E. apply rbind_ok_inv in E as (st1 & E1 & E). destruct (enter_mu u st st1 Hs Hu E1) as [O1 M1]. apply rbind_ok_inv in E as (es & _ & E). apply rbind_ok_inv in E as (st2 & E2 & E).
      destruct (HE es st1 O1) as [_ H2]. destruct (H2 _ E2) as [O2 M2]. destruct (leave_exact u st2 O2) as [_ H3]. destruct (H3 _ E) as [O3 M3]. split; [exact O3|lia].
  Qed.

  Lemma deg_all : isum deg (length g) = length (concat g).
  Proof.
    clear. induction g as [|es l IH] using rev_ind; [reflexivity|]. rewrite app_length, Nat.add_1_r, concat_app, app_length. cbn [GraphWorkProof.isum concat]. rewrite app_nil_r.
    rewrite (GraphWorkProof.isum_ext _ (GraphWorkProof.deg l)), IH.
    - f_equal. unfold GraphWorkProof.deg. rewrite lookup_app_r, Nat.sub_diag by lia. reflexivity.
    - intros i Hi. unfold GraphWorkProof.deg. rewrite lookup_app_l by lia. reflexivity.
  Qed.
  Lemma seen_all f ord : (forall u, (u < length ord)%nat -> 0 <= hl ord u) -> seen f ord = isum f (length ord).
  Proof.
    intros H. unfold seen. apply GraphWorkProof.isum_ext. intros u Hu. specialize (H u Hu). unfold hl in H. destruct (ord !! u) as [x|] eqn:E; [|apply lookup_ge_None in E; lia].
    cbn in H. destruct (Z.eqb_spec x (-1)); [lia|reflexivity].
  Qed.
  Lemma scc_exact : (forall u v, edge g u v -> (v < length g)%nat) -> Z.of_nat (length g) <= 2 ^ 31 - 1 ->
    costs (sccW g) (scc g) (fun x => 4 * length g + length (concat g) + x.1)%nat.
  Proof.
    intros Hg Hn. destruct (scc_visit_ok g (length g) eq_refl Hn Hg) as (st & E & Hinv & Hvis).
    assert (ok (tj_new (length g)) /\ mu (tj_new (length g)) = 0%nat) as [O0 M0].
    { assert (forall f, seen f (replicate (length g) (-1)) = 0%nat) as H0.
      { intros f. unfold seen. rewrite replicate_length. rewrite (GraphWorkProof.isum_ext _ (fun _ => 0%nat)); [rewrite GraphWorkProof.isum_const; lia|].
        intros i Hi. rewrite lookup_replicate_2 by exact Hi. reflexivity. }
      unfold ok, mu, tj_new. cbn [tj_pos tj_ord tj_stk tj_comp concat length]. rewrite !H0. split; [split; [lia|reflexivity]|reflexivity]. }
    destruct (costs_for_inv ok mu 1 (range 0 (length g)) (fun i st => tick ;;* o <* elift (vget (tj_ord st) i) ;* if o =? -1 then tdfsW (S (length g)) g i st else eret st)
      (fun i st => o ← vget (tj_ord st) i; if o =? -1 then tdfs (S (length g)) g i st else Ok st)) with (s := tj_new (length g)) as [C1 H1]; [|exact O0|].
    { intros i s _ Is. split.
      - eapply (costs_tick _ _ _ (fun s' => mu s' - mu s)%nat); [|lia]. apply costs_lift_bind. intros o Ho. apply vget_ok_iff in Ho.
        destruct (Z.eqb_spec o (-1)) as [->|]; [apply tdfs_exact; assumption|eapply costs_ext; [apply costs_ret|]; intros a [= <-]; lia].
      - intros s' E'. apply rbind_ok_inv in E' as (o & Ho & E'). apply vget_ok_iff in Ho. destruct (Z.eqb_spec o (-1)) as [->|]; [eapply tdfs_exact; eassumption|injection E' as <-; split; [exact Is|lia]]. }
    destruct (H1 st E) as [[_ Oc] _]. rewrite (idle_stack_empty g (length g) eq_refl st Hinv) in Oc. cbn [length] in Oc.
    destruct (ti_lens _ _ _ _ Hinv) as (_ & _ & Lo).
    assert (forall u, (u < length (tj_ord st))%nat -> 0 <= hl (tj_ord st) u) as Hv by (intros u Hu; apply Hvis; lia).
    rewrite seen_all in Oc by exact Hv. rewrite GraphWorkProof.isum_const, Lo in Oc.
    assert (mu st = 2 * length g + length (concat g))%nat as Mf.
    { unfold mu. rewrite seen_all by exact Hv. rewrite GraphWorkProof.isum_plus, GraphWorkProof.isum_const, Lo, deg_all. lia. }
    unfold sccW, scc. eapply costs_bind; [exact C1|]. intros st' E'. assert (st' = st) as -> by congruence. clear E'.
    assert (forall comps i color, costs
        (efor (zip (seq i (length comps)) comps) (fun ic color => tick ;;* efor ic.2 (fun x color => tick ;;* elift (vset color x ic.1)) color) color)
        (rfor (zip (seq i (length comps)) comps) (fun ic color => rfor ic.2 (fun x color => vset color x ic.1) color) color) (fun _ => length (concat comps) + length comps)%nat) as HC.
    { induction comps as [|c comps IH]; intros i color; cbn [length seq zip zip_with efor rfor concat]; [apply costs_ret|]. eapply costs_bind.
      - eapply (costs_tick _ _ (fun _ => 1 + length c * 1)%nat); [|reflexivity]. cbn [snd fst]. apply (costs_for_const 1). intros x s. eapply costs_tick; [apply costs_lift|reflexivity].
      - intros color' _. eexists. split; [apply IH|]. intros b _. rewrite app_length. lia. }
    exists (fun _ => length (concat (tj_comp st)) + length (tj_comp st))%nat. split.
    - eapply costs_bind; [unfold range; rewrite Nat.sub_0_r; apply HC|]. intros col _. exists (fun _ => 0%nat). split; [apply costs_ret|]. intros; lia.
    - intros b Eb. apply rbind_ok_inv in Eb as (col & _ & Eb). injection Eb as <-. cbn [fst]. unfold range. rewrite seq_length, Mf, M0. lia.
  Qed.
End Scc.
Close Scope Z_scope.
