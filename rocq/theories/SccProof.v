(** Proof of Tarjan's algorithm. *)
From stdpp Require Import relations.
From Verif Require Import Prelude IntModel SccModel SccSpec DinicProof.
Open Scope Z_scope.

Section tarjan.
  Context (g : list (list nat)) (n : nat) (Hn : length g = n) (Hn32 : Z.of_nat n <= 2 ^ 31 - 1).
  Context (Hg : forall u v, edge g u v -> (v < n)%nat).

  (** Order number of x, -1 when not visited; low value. *)
  Notation od st x := (hl (tj_ord st) x).
  Notation lw st x := (hl (tj_low st) x).
  Definition visited (st : tj) (x : nat) : Prop := 0 <= od st x.
  Definition in_comp (st : tj) (i x : nat) : Prop := exists c, tj_comp st !! i = Some c /\ x ∈ c.

  Record tinv (gray : nat -> Prop) (st : tj) : Prop := {
    ti_lens : length (tj_ons st) = n /\ length (tj_low st) = n /\ length (tj_ord st) = n;
    ti_pos : tj_pos st = Z.of_nat n - Z.of_nat (unset (tj_ord st));
    ti_ord : forall x, -1 <= od st x < tj_pos st;
    ti_ons : forall x, tj_ons st !! x = Some true <-> x ∈ tj_stk st;
    ti_vis : forall x, x ∈ tj_stk st -> visited st x;
    ti_sort : forall l1 l2, tj_stk st = l1 ++ l2 -> forall a b, a ∈ l1 -> b ∈ l2 -> od st b < od st a;
    ti_done : forall x, visited st x -> x ∈ tj_stk st \/ exists i, in_comp st i x;
    ti_comp : forall i x, in_comp st i x -> visited st x /\ x ∉ tj_stk st;
    ti_uniq : forall i j x, in_comp st i x -> in_comp st j x -> i = j;
    ti_ne : forall i c, tj_comp st !! i = Some c -> c <> [];
    ti_fin : forall x z, visited st x -> ~ gray x -> edge g x z -> visited st z;
    ti_top : forall i x z, in_comp st i x -> edge g x z -> exists j, (j <= i)%nat /\ in_comp st j z;
    ti_mut : forall i x y, in_comp st i x -> in_comp st i y -> reach g x y;
    ti_low : forall x, x ∈ tj_stk st -> exists y, y ∈ tj_stk st /\ od st y = lw st x /\ lw st x <= od st x /\ reach g x y /\
               (~ gray x -> lw st x < od st x) }.

  (** What dfs u leaves behind: seg is what it pushed and did not pop. *)
  Record tpost (u : nat) (st st' : tj) (seg : list nat) : Prop := {
    tp_stk : tj_stk st' = seg ++ tj_stk st;
    tp_old : forall x, visited st x -> od st' x = od st x /\ lw st' x = lw st x;
    tp_u : visited st' u;
    tp_new : forall w, w ∈ seg -> ~ visited st w;
    tp_comp : exists cs, tj_comp st' = tj_comp st ++ cs;
    tp_seg : u ∈ seg \/ seg = [];
    tp_reach : forall w, w ∈ seg -> reach g u w;
    tp_low : forall w z, w ∈ seg -> edge g w z -> z ∈ tj_stk st' -> lw st' u <= od st' z }.

  Lemma app_mid_cons {A} (l1 l2 : list A) u stk : u :: stk = l1 ++ l2 -> l1 = [] \/ exists l, l1 = u :: l /\ stk = l ++ l2.
  Proof. destruct l1 as [|a l]; [auto|]. intros [= -> ->]. right. eauto. Qed.

  Lemma vget_hl l x : (x < length l)%nat -> vget l x = Ok (hl l x).
  Proof. intros H. apply vget_ok. unfold hl. destruct (lookup_lt_is_Some_2 l x H) as [z E]. rewrite E. reflexivity. Qed.
  Lemma ons_get gray st x : tinv gray st -> (x < n)%nat -> exists b, vget (tj_ons st) x = Ok b /\ (b = true <-> x ∈ tj_stk st).
  Proof.
    intros H Hx. destruct (vget_lt (tj_ons st) x) as (b & E & Hb); [destruct (ti_lens _ _ H) as [-> _]; exact Hx|].
    exists b. split; [exact E|]. rewrite <- (ti_ons _ _ H x), Hb. split; congruence.
  Qed.
  Lemma visited_lt gray st x : tinv gray st -> visited st x -> (x < n)%nat.
  Proof. intros H Hx. apply hl_ge0_lt in Hx. destruct (ti_lens _ _ H) as (_ & _ & E). lia. Qed.

  (** *** Entering *)
  Lemma enter_ok gray st u : tinv gray st -> (forall x, gray x -> visited st x) -> (u < n)%nat -> ~ visited st u ->
    exists st1, tj_enter u st = Ok st1 /\ tinv (fun x => gray x \/ x = u) st1 /\
      tj_stk st1 = u :: tj_stk st /\ tj_comp st1 = tj_comp st /\
      (forall x, od st1 x = if decide (x = u) then tj_pos st else od st x) /\
      (forall x, lw st1 x = if decide (x = u) then tj_pos st else lw st x) /\
      S (unset (tj_ord st1)) = unset (tj_ord st).
  Proof.
    intros H Hgr Hu Hv. destruct st as [pos ons low ord stk comp]. destruct H. unfold visited, in_comp in *. cbn [tj_pos tj_ons tj_low tj_ord tj_stk tj_comp] in *.
    destruct ti_lens0 as (L1 & L2 & L3). unfold tj_enter. cbn [tj_pos tj_ons tj_low tj_ord tj_stk tj_comp].
    pose proof (ti_ord0 u) as Hou. assert (hl ord u = -1) as Hm1 by lia.
    pose proof (unset_insert ord u pos Hm1 ltac:(lia) ltac:(lia)) as Hun.
    rewrite vset_ok by lia. cbn [mbind res_bind]. rewrite vset_ok by lia. cbn [mbind res_bind].
    rewrite iadd_ok by (unfold in_ty, it_min, it_max, i32; cbn; lia). cbn [mbind res_bind].
    rewrite vset_ok by lia. cbn [mbind res_bind].
    eexists. split; [reflexivity|]. cbn [tj_pos tj_ons tj_low tj_ord tj_stk tj_comp].
    assert (forall x, hl (<[u:=pos]> ord) x = if decide (x = u) then pos else hl ord x) as Ho by (intros; apply hl_insert; lia).
    assert (forall x, hl (<[u:=pos]> low) x = if decide (x = u) then pos else hl low x) as Hl by (intros; apply hl_insert; lia).
    assert (forall x, 0 <= hl ord x -> hl (<[u:=pos]> ord) x = hl ord x /\ x <> u) as Hov.
    { intros x Hx. assert (x <> u) by (intros ->; lia). rewrite Ho. rewrite decide_False by assumption. auto. }
    split; [|split; [reflexivity|split; [reflexivity|split; [exact Ho|split; [exact Hl|exact Hun]]]]].
    split; unfold visited, in_comp; cbn [tj_pos tj_ons tj_low tj_ord tj_stk tj_comp].
    - rewrite !insert_length. auto.
    - lia.
    - intros x. rewrite Ho. pose proof (ti_ord0 x). case_decide; lia.
    - intros x. rewrite elem_of_cons. destruct (decide (x = u)) as [->|Hne].
      + rewrite list_lookup_insert by lia. split; auto.
      + rewrite list_lookup_insert_ne by done. rewrite ti_ons0. split; [auto|]. intros [?|?]; [congruence|auto].
    - intros x [->|Hx]%elem_of_cons; rewrite Ho; [rewrite decide_True by done; lia|]. specialize (ti_vis0 x Hx). case_decide; [lia|exact ti_vis0].
    - intros l1 l2 E a b Ha Hb. apply app_mid_cons in E as [->|(l & -> & E)]; [apply elem_of_nil in Ha; done|].
      assert (b ∈ stk) as Hbs by (rewrite E; apply elem_of_app; auto).
      destruct (Hov b (ti_vis0 b Hbs)) as [-> Hbu]. apply elem_of_cons in Ha as [->|Ha].
      + rewrite Ho. rewrite decide_True by done. apply ti_ord0.
      + assert (a ∈ stk) as Has by (rewrite E; apply elem_of_app; auto).
        destruct (Hov a (ti_vis0 a Has)) as [-> _]. apply (ti_sort0 l l2 E); assumption.
    - intros x Hx. rewrite Ho in Hx. case_decide as Ex; [subst; left; apply elem_of_list_here|].
      destruct (ti_done0 x Hx) as [?|?]; [left; apply elem_of_list_further; assumption|right; assumption].
    - intros i x Hx. destruct (ti_comp0 i x Hx) as [H1 H2]. destruct (Hov x H1) as [E Hne]. rewrite E. split; [exact H1|].
      intros [?|?]%elem_of_cons; auto.
    - exact ti_uniq0.
    - exact ti_ne0.
    - intros x z Hx Hgx He. assert (x <> u) as Hxu by (intros ->; apply Hgx; auto). rewrite Ho in Hx. rewrite decide_False in Hx by done.
      rewrite Ho. case_decide; [lia|]. eapply ti_fin0; eauto.
    - exact ti_top0.
    - exact ti_mut0.
    - intros x [->|Hx]%elem_of_cons.
      + exists u. rewrite Ho, Hl. rewrite !decide_True by done. split; [apply elem_of_list_here|]. split; [reflexivity|]. split; [lia|].
        split; [reflexivity|]. intros HH. exfalso. apply HH. auto.
      + destruct (Hov x (ti_vis0 x Hx)) as [E Hne]. rewrite E, Hl. rewrite (decide_False (P := x = u)) by done.
        destruct (ti_low0 x Hx) as (y & Hy & K1 & K2 & K3 & K4). exists y.
        destruct (Hov y (ti_vis0 y Hy)) as [Ey _]. rewrite Ey. split; [apply elem_of_list_further; exact Hy|].
        repeat split; auto.
  Qed.

  (** *** The loop over the edges *)
  Record lpost (gray : nat -> Prop) (u : nat) (st0 : tj) (dn : list nat) (st1 : tj) (seg : list nat) : Prop := {
    lp_inv : tinv (fun x => gray x \/ x = u) st1;
    lp_stk : tj_stk st1 = seg ++ u :: tj_stk st0;
    lp_old : forall x, visited st0 x -> od st1 x = od st0 x /\ lw st1 x = lw st0 x;
    lp_new : forall w, w ∈ seg -> ~ visited st0 w /\ w <> u;
    lp_comp : exists cs, tj_comp st1 = tj_comp st0 ++ cs;
    lp_reach : forall w, w ∈ seg -> reach g u w;
    lp_low : forall w z, w ∈ seg -> edge g w z -> z ∈ tj_stk st1 -> lw st1 u <= od st1 z;
    lp_done : forall z, z ∈ dn -> visited st1 z /\ (z ∈ tj_stk st1 -> lw st1 u <= od st1 z) }.

  Lemma low_min_inv gray u v st : tinv (fun x => gray x \/ x = u) st -> u ∈ tj_stk st -> v ∈ tj_stk st -> reach g u v ->
    tinv (fun x => gray x \/ x = u) (TJ (tj_pos st) (tj_ons st) (<[u:=Z.min (lw st u) (lw st v)]> (tj_low st)) (tj_ord st) (tj_stk st) (tj_comp st)).
  Proof.
    intros H Hu Hv Hr. pose proof (visited_lt _ st u H (ti_vis _ _ H u Hu)) as Hun. destruct H.
    assert (forall x, hl (<[u:=Z.min (lw st u) (lw st v)]> (tj_low st)) x = if decide (x = u) then Z.min (lw st u) (lw st v) else lw st x) as Hl.
    { intros x. apply hl_insert. lia. }
    split; unfold visited, in_comp in *; cbn [tj_pos tj_ons tj_low tj_ord tj_stk tj_comp]; auto.
    - rewrite insert_length. exact ti_lens0.
    - intros x Hx. rewrite Hl. destruct (decide (x = u)) as [->|Hne]; [|auto].
      destruct (ti_low0 u Hu) as (y & Hy & K1 & K2 & K3 & _).
      destruct (ti_low0 v Hv) as (y' & Hy' & K1' & K2' & K3' & _).
      destruct (Z.min_spec (lw st u) (lw st v)) as [[? ->]|[? ->]].
      + exists y. repeat split; auto. intros HH. exfalso. apply HH. auto.
      + exists y'. repeat split; auto; [lia|exact (rtc_transitive _ _ _ Hr K3')|]. intros HH. exfalso. apply HH. auto.
  Qed.

  (** Between the possible recursive call and the update of low[u]. *)
  Record mpost (gray : nat -> Prop) (u : nat) (st0 : tj) (dn : list nat) (v : nat) (st1 : tj) (seg : list nat) : Prop := {
    mp_inv : tinv (fun x => gray x \/ x = u) st1;
    mp_stk : tj_stk st1 = seg ++ u :: tj_stk st0;
    mp_old : forall x, visited st0 x -> od st1 x = od st0 x /\ lw st1 x = lw st0 x;
    mp_new : forall w, w ∈ seg -> ~ visited st0 w /\ w <> u;
    mp_comp : exists cs, tj_comp st1 = tj_comp st0 ++ cs;
    mp_reach : forall w, w ∈ seg -> reach g u w;
    mp_low : forall w z, w ∈ seg -> edge g w z -> z ∈ tj_stk st1 -> lw st1 u <= od st1 z \/ (v ∈ tj_stk st1 /\ lw st1 v <= od st1 z);
    mp_done : forall z, z ∈ dn -> visited st1 z /\ (z ∈ tj_stk st1 -> lw st1 u <= od st1 z);
    mp_v : visited st1 v }.

  Lemma edge_tail_ok gray u st0 dn v st1 seg : edge g u v -> ~ visited st0 u -> (v < n)%nat -> mpost gray u st0 dn v st1 seg ->
    exists st2, (b ← vget (tj_ons st1) v;
      if b : bool then
        lu ← vget (tj_low st1) u;
        lv ← vget (tj_low st1) v;
        low ← vset (tj_low st1) u (Z.min lu lv);
        Ok (TJ (tj_pos st1) (tj_ons st1) low (tj_ord st1) (tj_stk st1) (tj_comp st1))
      else Ok st1) = Ok st2 /\ lpost gray u st0 (dn ++ [v]) st2 seg /\ tj_ord st2 = tj_ord st1.
  Proof.
    intros He Hu0 Hv [Hinv Hstk Hold Hnew Hcomp Hreach Hlow Hdone Hvv].
    assert (u ∈ tj_stk st1) as Hus by (rewrite Hstk; apply elem_of_app; right; apply elem_of_list_here).
    pose proof (ti_vis _ _ Hinv u Hus) as Huv. pose proof (visited_lt _ _ _ Hinv Huv) as Hun.
    destruct (ti_lens _ _ Hinv) as (L1 & L2 & L3).
    destruct (ons_get _ st1 v Hinv Hv) as (b & Eb & Hb). rewrite Eb. cbn [mbind res_bind].
    destruct b.
    - pose proof (proj1 Hb eq_refl) as Hvs. rewrite !vget_hl by lia. cbn [mbind res_bind]. rewrite vset_ok by lia. cbn [mbind res_bind].
      eexists. split; [reflexivity|]. split; [|reflexivity].
      assert (forall x, hl (<[u:=Z.min (lw st1 u) (lw st1 v)]> (tj_low st1)) x = if decide (x = u) then Z.min (lw st1 u) (lw st1 v) else lw st1 x) as Hl.
      { intros x. apply hl_insert. lia. }
      split; cbn [tj_pos tj_ons tj_low tj_ord tj_stk tj_comp]; auto.
      + apply low_min_inv; auto. apply rtc_once. exact He.
      + intros x Hx. rewrite Hl. rewrite decide_False by (intros ->; auto). apply Hold. exact Hx.
      + intros w z Hw Hwz Hz. rewrite Hl. rewrite decide_True by done. destruct (Hlow w z Hw Hwz Hz) as [?|[_ ?]]; lia.
      + intros z [Hz|Hz%elem_of_list_singleton]%elem_of_app; rewrite Hl; rewrite decide_True by done.
        * destruct (Hdone z Hz) as [D1 D2]. split; [exact D1|]. intros D3. specialize (D2 D3). lia.
        * subst z. split; [exact Hvv|]. intros _. destruct (ti_low _ _ Hinv v Hvs) as (y & _ & _ & K & _). lia.
    - assert (v ∉ tj_stk st1) as Hvs by (intros HH; apply Hb in HH; discriminate).
      exists st1. split; [reflexivity|]. split; [|reflexivity]. split; auto.
      + intros w z Hw Hwz Hz. destruct (Hlow w z Hw Hwz Hz) as [?|[? _]]; [assumption|contradiction].
      + intros z [Hz|Hz%elem_of_list_singleton]%elem_of_app; [auto|]. subst z. split; [exact Hvv|]. intros. contradiction.
  Qed.

  Lemma edge_body_ok rec gray u st0 dn v st1 seg k : (unset (tj_ord st1) <= k)%nat ->
    (forall v st, tinv (fun x => gray x \/ x = u) st -> (v < n)%nat -> ~ visited st v -> (unset (tj_ord st) <= k)%nat ->
       (forall x, gray x \/ x = u -> visited st x) ->
       exists st' seg, rec v st = Ok st' /\ tinv (fun x => gray x \/ x = u) st' /\ tpost v st st' seg /\ (unset (tj_ord st') <= unset (tj_ord st))%nat) ->
    edge g u v -> ~ visited st0 u -> (forall x, gray x -> visited st0 x) -> lpost gray u st0 dn st1 seg ->
    exists st2 seg2, edge_body rec u v st1 = Ok st2 /\ lpost gray u st0 (dn ++ [v]) st2 seg2 /\ (unset (tj_ord st2) <= k)%nat.
  Proof.
    intros Hk Hrec He Hu0 Hgr HL. pose proof (Hg u v He) as Hv. destruct HL as [Hinv Hstk Hold Hnew Hcomp Hreach Hlow Hdone].
    assert (u ∈ tj_stk st1) as Hus by (rewrite Hstk; apply elem_of_app; right; apply elem_of_list_here).
    pose proof (ti_vis _ _ Hinv u Hus) as Huv. pose proof (visited_lt _ _ _ Hinv Huv) as Hun.
    assert (forall x, visited st0 x -> visited st1 x) as Hvv.
    { intros x Hx. unfold visited. destruct (Hold x Hx) as [-> _]. exact Hx. }
    unfold edge_body. destruct (ti_lens _ _ Hinv) as (L1 & L2 & L3).
    rewrite (vget_hl (tj_ord st1) v) by lia. cbn [mbind res_bind].
    assert (exists st2 seg2, (if od st1 v =? -1 then rec v st1 else Ok st1) = Ok st2 /\
      mpost gray u st0 dn v st2 seg2 /\ (unset (tj_ord st2) <= k)%nat) as (st2 & seg2 & E & HM & Hk2).
    { pose proof (ti_ord _ _ Hinv v) as Hov. destruct (Z.eqb_spec (od st1 v) (-1)) as [Ev|Ev].
      - destruct (Hrec v st1 Hinv Hv) as (st2 & seg' & E & Hinv2 & HP & Hk2); auto.
        { unfold visited. lia. }
        { intros x [Hx| ->]; auto. }
        exists st2, (seg' ++ seg). split; [exact E|]. split; [|lia]. destruct HP.
        assert (forall z, visited st1 z -> z ∈ tj_stk st2 -> z ∈ tj_stk st1) as Hback.
        { intros z Hz Hzs. rewrite tp_stk0 in Hzs. apply elem_of_app in Hzs as [Hzs|Hzs]; [|exact Hzs]. exfalso. exact (tp_new0 z Hzs Hz). }
        split; auto.
        + rewrite tp_stk0, Hstk. apply app_assoc.
        + intros x Hx. destruct (tp_old0 x (Hvv x Hx)) as [-> ->]. apply Hold. exact Hx.
        + intros w [Hw|Hw]%elem_of_app; [|auto]. split; [intros Hx; apply (tp_new0 w Hw); auto|intros ->; apply (tp_new0 u Hw); auto].
        + destruct tp_comp0 as [cs ->]. destruct Hcomp as [cs' ->]. exists (cs' ++ cs). rewrite app_assoc. reflexivity.
        + intros w [Hw|Hw]%elem_of_app; [|auto]. eapply rtc_l; [exact He|]. apply tp_reach0. exact Hw.
        + intros w z [Hw|Hw]%elem_of_app Hwz Hz.
          * right. split; [|eapply tp_low0; eauto]. destruct tp_seg0 as [Hvs|Hnil]; [|subst seg'; apply elem_of_nil in Hw; done].
            rewrite tp_stk0. apply elem_of_app. auto.
          * left. assert (visited st1 w) as Hwv by (apply (ti_vis _ _ Hinv); rewrite Hstk; apply elem_of_app; auto).
            assert (visited st1 z) as Hzv.
            { apply (ti_fin _ _ Hinv w z Hwv); auto. destruct (Hnew w Hw) as [N1 N2]. intros [Hgw| ->]; auto. }
            destruct (tp_old0 z Hzv) as [-> _]. destruct (tp_old0 u Huv) as [_ ->]. eapply Hlow; eauto.
        + intros z Hz. destruct (Hdone z Hz) as [D1 D2]. destruct (tp_old0 z D1) as [E1 _]. unfold visited. rewrite E1. split; [exact D1|].
          intros Hzs. destruct (tp_old0 u Huv) as [_ ->]. apply D2. apply Hback; auto.
      - exists st1, seg. split; [reflexivity|]. split; [|lia]. split; auto.
        + intros w z Hw Hwz Hz. left. eapply Hlow; eauto.
        + unfold visited. lia. }
    rewrite E. cbn [mbind res_bind].
    destruct (edge_tail_ok gray u st0 dn v st2 seg2 He Hu0 Hv HM) as (st3 & E3 & HL3 & Eo).
    exists st3, seg2. split; [exact E3|]. split; [exact HL3|]. rewrite Eo. exact Hk2.
  Qed.

  (** *** Leaving *)
  Lemma pop_comp_ok u : forall seg rest ons comp, u ∉ seg -> (forall x, x ∈ seg ++ [u] -> (x < length ons)%nat) ->
    exists ons', pop_comp u (seg ++ u :: rest) ons comp = Ok (rest, ons', comp ++ seg ++ [u]) /\ length ons' = length ons /\
      forall x, ons' !! x = if decide (x ∈ seg ++ [u]) then Some false else ons !! x.
  Proof.
    induction seg as [|v seg IH]; intros rest ons comp Hu Hl; cbn [app pop_comp].
    - rewrite vset_ok by (apply Hl; apply elem_of_list_here). cbn [mbind res_bind]. rewrite Nat.eqb_refl.
      eexists. split; [reflexivity|]. split; [apply insert_length|]. intros x.
      destruct (decide (x ∈ [u])) as [->%elem_of_list_singleton|Hx].
      + apply list_lookup_insert. apply Hl. apply elem_of_list_here.
      + apply list_lookup_insert_ne. intros ->. apply Hx. apply elem_of_list_here.
    - rewrite vset_ok by (apply Hl; apply elem_of_list_here). cbn [mbind res_bind].
      destruct (Nat.eqb_spec u v) as [->|Hne]; [exfalso; apply Hu; apply elem_of_list_here|].
      destruct (IH rest (<[v:=false]> ons) (comp ++ [v])) as (ons' & E & El & Ho).
      + intros HH. apply Hu. apply elem_of_list_further. exact HH.
      + intros x Hx. rewrite insert_length. apply Hl. apply elem_of_list_further. exact Hx.
      + exists ons'. split; [rewrite E, <- app_assoc; reflexivity|]. split; [rewrite El; apply insert_length|].
        intros x. rewrite Ho. destruct (decide (x ∈ seg ++ [u])) as [Hx|Hx].
        * rewrite decide_True by (apply elem_of_list_further; exact Hx). reflexivity.
        * destruct (decide (x = v)) as [->|Hxv].
          -- rewrite decide_True by apply elem_of_list_here. apply list_lookup_insert. apply Hl. apply elem_of_list_here.
          -- rewrite decide_False by (intros [?|?]%elem_of_cons; auto). apply list_lookup_insert_ne. auto.
  Qed.

  Lemma leave_ok (gray : nat -> Prop) u st0 es st1 seg : ~ visited st0 u -> (forall x, gray x -> visited st0 x) -> g !! u = Some es ->
    tinv gray st0 -> lpost gray u st0 es st1 seg ->
    exists st2 seg2, tj_leave u st1 = Ok st2 /\ tinv gray st2 /\ tpost u st0 st2 seg2 /\ tj_ord st2 = tj_ord st1.
  Proof.
    intros Hu0 Hgr Hes Hinv0 [Hinv Hstk Hold Hnew Hcomp Hreach Hlow Hdone].
    assert (u ∈ tj_stk st1) as Hus by (rewrite Hstk; apply elem_of_app; right; apply elem_of_list_here).
    pose proof (ti_vis _ _ Hinv u Hus) as Huv. pose proof (visited_lt _ _ _ Hinv Huv) as Hun.
    destruct (ti_lens _ _ Hinv) as (L1 & L2 & L3).
    destruct (ti_low _ _ Hinv u Hus) as (yu & Hyu & Ku1 & Ku2 & Ku3 & _).
    assert (forall z, edge g u z -> visited st1 z /\ (z ∈ tj_stk st1 -> lw st1 u <= od st1 z)) as Hued.
    { intros z (es' & E & Hz). rewrite Hes in E. injection E as <-. apply Hdone. exact Hz. }
    assert (forall w, w ∈ seg -> w ∈ tj_stk st1) as Hseg by (intros w Hw; rewrite Hstk; apply elem_of_app; auto).
    assert (forall w, w ∈ seg -> ~ (gray w \/ w = u)) as Hsgr.
    { intros w Hw. destruct (Hnew w Hw) as [N1 N2]. intros [?| ->]; auto. }
    assert (forall b, b ∈ tj_stk st0 -> od st1 b < od st1 u) as Hbelow.
    { intros b Hb. apply (ti_sort _ _ Hinv (seg ++ [u]) (tj_stk st0)); [rewrite Hstk, <- app_assoc; reflexivity| |exact Hb].
      apply elem_of_app. right. apply elem_of_list_here. }
    assert (forall x, x ∈ tj_stk st1 -> od st1 u <= od st1 x -> x ∈ seg ++ [u]) as Habove.
    { intros x Hx Hox. rewrite Hstk in Hx. apply elem_of_app in Hx as [Hx|[->|Hx]%elem_of_cons].
      - apply elem_of_app. auto.
      - apply elem_of_app. right. apply elem_of_list_here.
      - specialize (Hbelow x Hx). lia. }
    assert (forall x, x ∈ tj_stk st0 -> x ∈ tj_stk st1) as Hs01.
    { intros x Hx. rewrite Hstk. apply elem_of_app. right. apply elem_of_list_further. exact Hx. }
    unfold tj_leave. rewrite !vget_hl by lia. cbn [mbind res_bind].
    destruct (Z.eqb_spec (lw st1 u) (od st1 u)) as [Eq|Neq].
    - (* a component is complete *)
      destruct (pop_comp_ok u seg (tj_stk st0) (tj_ons st1) []) as (ons' & Ep & El & Ho).
      { intros HH. apply (proj2 (Hnew u HH)). reflexivity. }
      { intros x Hx. rewrite L1. apply elem_of_app in Hx as [Hx|Hx%elem_of_list_singleton]; [|subst; exact Hun].
        apply (visited_lt _ _ _ Hinv). apply (ti_vis _ _ Hinv). auto. }
      rewrite Hstk, Ep. cbn [mbind res_bind app].
      set (C := seg ++ [u]) in *.
      assert (forall x, x ∈ C -> x ∈ tj_stk st1) as HCs.
      { intros x [Hx|Hx%elem_of_list_singleton]%elem_of_app; [auto|subst; exact Hus]. }
      assert (forall x, x ∈ C -> x ∉ tj_stk st0) as HC0.
      { intros x Hx Hx0. pose proof (Hbelow x Hx0). apply elem_of_app in Hx as [Hx|Hx%elem_of_list_singleton]; [|subst; lia].
        pose proof (ti_sort _ _ Hinv seg (u :: tj_stk st0) Hstk x u Hx (elem_of_list_here _ _)). lia. }
      (* edges out of the component stay in it or go to finished ones *)
      assert (forall x z, x ∈ C -> edge g x z -> z ∈ C \/ exists j, in_comp st1 j z) as Hout.
      { intros x z Hx Hxz.
        assert (visited st1 z /\ (z ∈ tj_stk st1 -> lw st1 u <= od st1 z)) as [Hzv Hzl].
        { apply elem_of_app in Hx as [Hx|Hx%elem_of_list_singleton]; [|subst x; auto].
          split; [|intros Hz; eapply Hlow; eauto]. apply (ti_fin _ _ Hinv x z); auto. apply (ti_vis _ _ Hinv). auto. }
        destruct (ti_done _ _ Hinv z Hzv) as [Hz|?]; [left|right; assumption]. apply Habove; [exact Hz|]. specialize (Hzl Hz). lia. }
      assert (forall x y, reach g x y -> x ∈ C \/ (exists j, in_comp st1 j x) -> y ∈ C \/ exists j, in_comp st1 j y) as Hclosed.
      { intros x y Hxy. induction Hxy as [x|x z y Hxz _ IH]; [auto|]. intros Hx. apply IH. destruct Hx as [Hx|[j Hx]]; [eauto|].
        destruct (ti_top _ _ Hinv j x z Hx Hxz) as (j' & _ & ?). eauto. }
      assert (forall k x, x ∈ C -> od st1 x <= Z.of_nat k -> reach g x u) as Hback.
      { induction k as [|k IH]; intros x Hx Hk.
        - apply elem_of_app in Hx as [Hx|Hx%elem_of_list_singleton]; [|subst; reflexivity].
          pose proof (ti_sort _ _ Hinv seg (u :: tj_stk st0) Hstk x u Hx (elem_of_list_here _ _)). unfold visited in Huv. lia.
        - pose proof (HCs x Hx) as Hxs. destruct (decide (x = u)) as [->|Hne]; [reflexivity|].
          assert (x ∈ seg) as Hxseg by (apply elem_of_app in Hx as [?|?%elem_of_list_singleton]; [assumption|congruence]).
          destruct (ti_low _ _ Hinv x Hxs) as (y & Hy & K1 & K2 & K3 & K4). specialize (K4 (Hsgr x Hxseg)).
          unfold reach in *. etrans; [exact K3|]. apply IH; [|lia].
          destruct (Hclosed x y K3 (or_introl Hx)) as [?|[j Hj]]; [assumption|]. exfalso. apply (proj2 (ti_comp _ _ Hinv j y Hj)). exact Hy. }
      assert (forall x, x ∈ C -> reach g x u /\ reach g u x) as Hmut.
      { intros x Hx. split.
        - apply (Hback (Z.to_nat (od st1 x)) x Hx). pose proof (ti_vis _ _ Hinv x (HCs x Hx)). unfold visited in *. lia.
        - apply elem_of_app in Hx as [Hx|Hx%elem_of_list_singleton]; [auto|subst; reflexivity]. }
      set (st2 := TJ (tj_pos st1) ons' (tj_low st1) (tj_ord st1) (tj_stk st0) (tj_comp st1 ++ [C])).
      set (k := length (tj_comp st1)).
      assert (forall i x, in_comp st2 i x <-> in_comp st1 i x \/ (i = k /\ x ∈ C)) as Hic.
      { intros i x. unfold in_comp, st2. cbn [tj_comp]. split.
        - intros (c & Hc & Hx). apply lookup_app_Some in Hc as [Hc|[Hi Hc]]; [left; eauto|right].
          apply list_lookup_singleton_Some in Hc as [Hi' <-]. split; [unfold k; lia|exact Hx].
        - intros [(c & Hc & Hx)|[-> Hx]].
          + exists c. split; [apply lookup_app_l_Some; exact Hc|exact Hx].
          + exists C. split; [unfold k; rewrite lookup_app_r by lia; rewrite Nat.sub_diag; reflexivity|exact Hx]. }
      assert (forall i x, in_comp st1 i x -> (i < k)%nat) as Hik by (intros i x (c & Hc & _); apply lookup_lt_Some in Hc; exact Hc).
      exists st2, []. split; [reflexivity|]. split; [|split; [|reflexivity]].
      + split.
        * cbn. split; [lia|auto].
        * apply (ti_pos _ _ Hinv).
        * apply (ti_ord _ _ Hinv).
        * intros x. cbn [tj_ons tj_stk st2]. rewrite Ho. destruct (decide (x ∈ C)) as [Hx|Hx].
          -- split; [discriminate|]. intros Hx0. exfalso. eapply HC0; eauto.
          -- rewrite (ti_ons _ _ Hinv x), Hstk, elem_of_app, elem_of_cons. split; [|auto].
             intros [?|[->|?]]; [exfalso; apply Hx; apply elem_of_app; auto|exfalso; apply Hx; apply elem_of_app; right; apply elem_of_list_here|assumption].
        * intros x Hx. apply (ti_vis _ _ Hinv x). auto.
        * intros l1 l2 E a b Ha Hb. cbn [tj_stk st2] in E.
          apply (ti_sort _ _ Hinv (C ++ l1) l2); [rewrite Hstk, E; unfold C; rewrite <- !app_assoc; reflexivity|apply elem_of_app; auto|exact Hb].
        * intros x Hx. destruct (ti_done _ _ Hinv x Hx) as [Hxs|[i Hi]].
          -- rewrite Hstk in Hxs. apply elem_of_app in Hxs as [Hxs|[->|Hxs]%elem_of_cons].
             ++ right. exists k. apply Hic. right. split; [reflexivity|]. apply elem_of_app. auto.
             ++ right. exists k. apply Hic. right. split; [reflexivity|]. apply elem_of_app. right. apply elem_of_list_here.
             ++ left. exact Hxs.
          -- right. exists i. apply Hic. auto.
        * intros i x [Hx|[_ Hx]]%Hic.
          -- destruct (ti_comp _ _ Hinv i x Hx) as [V1 V2]. split; [exact V1|]. intros HH. apply V2. auto.
          -- split; [apply (ti_vis _ _ Hinv); auto|auto].
        * intros i j x [Hi|[-> Hi]]%Hic [Hj|[-> Hj]]%Hic; [eapply (ti_uniq _ _ Hinv); eauto| | |reflexivity].
          -- exfalso. apply (proj2 (ti_comp _ _ Hinv i x Hi)). auto.
          -- exfalso. apply (proj2 (ti_comp _ _ Hinv j x Hj)). auto.
        * intros i c Hc. cbn [tj_comp st2] in Hc. apply lookup_app_Some in Hc as [Hc|[_ Hc]]; [apply (ti_ne _ _ Hinv i c Hc)|].
          apply list_lookup_singleton_Some in Hc as [_ <-]. unfold C. destruct seg; discriminate.
        * intros x z Hx Hgx Hxz. destruct (decide (x = u)) as [->|Hne]; [apply Hued; exact Hxz|].
          apply (ti_fin _ _ Hinv x z Hx); auto. intros [?|?]; auto.
        * intros i x z [Hx|[-> Hx]]%Hic Hxz.
          -- destruct (ti_top _ _ Hinv i x z Hx Hxz) as (j & Hj & Hz). exists j. split; [exact Hj|]. apply Hic. auto.
          -- destruct (Hout x z Hx Hxz) as [Hz|[j Hz]].
             ++ exists k. split; [lia|]. apply Hic. auto.
             ++ exists j. split; [specialize (Hik j z Hz); lia|]. apply Hic. auto.
        * intros i x y [Hx|[-> Hx]]%Hic [Hy|[E Hy]]%Hic; [eapply (ti_mut _ _ Hinv); eauto| | |].
          -- specialize (Hik i x Hx). lia.
          -- specialize (Hik k y Hy). lia.
          -- unfold reach. etrans; [apply Hmut; exact Hx|apply Hmut; exact Hy].
        * intros x Hx. cbn [tj_stk st2] in Hx. destruct (ti_low _ _ Hinv x (Hs01 x Hx)) as (y & Hy & K1 & K2 & K3 & K4).
          exists y. cbn [tj_stk st2]. pose proof (Hbelow x Hx) as Hbx. repeat split; auto.
          -- rewrite Hstk in Hy. apply elem_of_app in Hy as [Hy|[->|Hy]%elem_of_cons]; [|cbn in *; lia|exact Hy].
             pose proof (ti_sort _ _ Hinv seg (u :: tj_stk st0) Hstk y u Hy (elem_of_list_here _ _)). cbn in *. lia.
          -- intros Hgx. apply K4. intros [?| ->]; [auto|]. lia.
      + split; auto.
        * intros w Hw%elem_of_nil. done.
        * cbn [tj_comp st2]. destruct Hcomp as [cs ->]. exists (cs ++ [C]). rewrite app_assoc. reflexivity.
        * intros w Hw%elem_of_nil. done.
        * intros w z Hw%elem_of_nil. done.
    - (* u stays on the stack *)
      exists st1, (seg ++ [u]). split; [reflexivity|]. split; [|split; [|reflexivity]].
      + destruct Hinv. split; auto.
        * intros x z Hx Hgx Hxz. destruct (decide (x = u)) as [->|Hne]; [apply Hued; exact Hxz|].
          apply (ti_fin0 x z Hx); auto. intros [?|?]; auto.
        * intros x Hx. destruct (ti_low0 x Hx) as (y & Hy & K1 & K2 & K3 & K4). exists y. repeat split; auto.
          intros Hgx. destruct (decide (x = u)) as [->|Hne]; [lia|]. apply K4. intros [?|?]; auto.
      + split; auto.
        * rewrite Hstk, <- app_assoc. reflexivity.
        * intros w [Hw|Hw%elem_of_list_singleton]%elem_of_app; [apply Hnew; exact Hw|subst; exact Hu0].
        * left. apply elem_of_app. right. apply elem_of_list_here.
        * intros w [Hw|Hw%elem_of_list_singleton]%elem_of_app; [auto|subst; reflexivity].
        * intros w z [Hw|Hw%elem_of_list_singleton]%elem_of_app Hwz Hz; [eapply Hlow; eauto|subst w]. apply Hued; auto.
  Qed.

  Lemma tdfs_ok fuel : forall gray u st, (unset (tj_ord st) < fuel)%nat -> tinv gray st -> (forall x, gray x -> visited st x) ->
    (u < n)%nat -> ~ visited st u ->
    exists st' seg, tdfs fuel g u st = Ok st' /\ tinv gray st' /\ tpost u st st' seg /\ (unset (tj_ord st') <= unset (tj_ord st))%nat.
  Proof.
    induction fuel as [|fuel IH]; intros gray u st Hf Hinv Hgr Hu Hv; [lia|].
    cbn [tdfs]. destruct (enter_ok gray st u Hinv Hgr Hu Hv) as (st1 & E1 & Hinv1 & Hs1 & Hc1 & Ho1 & Hl1 & Hun1).
    rewrite E1. cbn [mbind res_bind]. destruct (vget_lt g u ltac:(lia)) as (es & Ees & Hes). rewrite Ees. cbn [mbind res_bind].
    destruct (rfor_inv (fun dn s => exists seg, lpost gray u st dn s seg /\ (unset (tj_ord s) <= unset (tj_ord st1))%nat)
      es (edge_body (tdfs fuel g) u) st1) as (st2 & E2 & seg & HL & Hk).
    - exists []. split; [|lia]. split; auto.
      + intros x Hx. rewrite Ho1, Hl1. rewrite !decide_False by (intros ->; auto). auto.
      + intros w Hw%elem_of_nil. done.
      + exists []. rewrite app_nil_r. exact Hc1.
      + intros w Hw%elem_of_nil. done.
      + intros w z Hw%elem_of_nil. done.
      + intros z Hz%elem_of_nil. done.
    - intros dn v rest s Hes' (seg & HL & Hk).
      destruct (edge_body_ok (tdfs fuel g) gray u st dn v s seg (unset (tj_ord st1)) Hk) as (s2 & seg2 & E & HL2 & Hk2); auto.
      + intros v' st' Hi Hv' Hnv Hk' Hg'. apply IH; auto; lia.
      + exists es. split; [exact Hes|]. rewrite Hes'. apply elem_of_app. right. apply elem_of_list_here.
      + exists s2. split; [exact E|]. eauto.
    - rewrite E2. cbn [mbind res_bind].
      destruct (leave_ok gray u st es st2 seg Hv Hgr Hes Hinv HL) as (st3 & seg3 & E3 & Hi3 & HP3 & Eo).
      exists st3, seg3. split; [exact E3|]. split; [exact Hi3|]. split; [exact HP3|]. rewrite Eo. lia.
  Qed.

  (** *** The whole function *)
  Lemma tj_new_inv : tinv (fun _ => False) (tj_new n).
  Proof.
    assert (forall x, hl (replicate n (-1)) x = -1) as Hh.
    { intros x. unfold hl. destruct (replicate n (-1) !! x) eqn:E; [|reflexivity]. apply lookup_replicate in E as [-> _]. reflexivity. }
    assert (unset (replicate n (-1)) = n) as Hu.
    { unfold unset. clear. induction n as [|m IH]; cbn [replicate]; [reflexivity|]. rewrite filter_cons_True by reflexivity. cbn [length]. lia. }
    assert (forall x, ~ visited (tj_new n) x) as Hv by (intros x; unfold visited, tj_new; cbn [tj_ord]; rewrite Hh; lia).
    assert (forall i x, ~ in_comp (tj_new n) i x) as Hc by (intros i x (c & Hc & _); discriminate).
    split; try (intros; exfalso; eapply Hv; eassumption); try (intros; exfalso; eapply Hc; eassumption).
    - cbn. rewrite !replicate_length. auto.
    - unfold tj_new; cbn [tj_pos tj_ord]. rewrite Hu. lia.
    - intros x. unfold tj_new; cbn [tj_pos tj_ord]; rewrite Hh. lia.
    - intros x. cbn. split; [|intros H%elem_of_nil; done]. intros H. apply lookup_replicate in H as [? _]. discriminate.
    - intros x H%elem_of_nil. done.
    - intros l1 l2 E a b Ha. destruct l1; [apply elem_of_nil in Ha; done|discriminate].
    - intros i c Hi. discriminate.
    - intros x H%elem_of_nil. done.
  Qed.

  Lemma idle_stack_empty st : tinv (fun _ => False) st -> tj_stk st = [].
  Proof.
    intros H. assert (forall k x, x ∈ tj_stk st -> od st x <= Z.of_nat k -> False) as Hk.
    { induction k as [|k IH]; intros x Hx Hle; destruct (ti_low _ _ H x Hx) as (y & Hy & K1 & K2 & K3 & K4);
        specialize (K4 (fun f => f)); pose proof (ti_vis _ _ H y Hy) as Hyv; unfold visited in Hyv; [lia|]. apply (IH y Hy). lia. }
    destruct (tj_stk st) as [|x l] eqn:E; [reflexivity|]. exfalso. apply (Hk (Z.to_nat (od st x)) x); [rewrite ?E; apply elem_of_list_here|lia].
  Qed.

  Lemma scc_visit_ok : exists st, rfor (range 0 n) (fun i st =>
         o ← vget (tj_ord st) i;
         if o =? -1 then tdfs (S n) g i st else Ok st) (tj_new n) = Ok st /\
    tinv (fun _ => False) st /\ forall x, (x < n)%nat -> visited st x.
  Proof.
    destruct (rfor_range_inv (fun k st => tinv (fun _ => False) st /\ forall x, (x < k)%nat -> visited st x) 0 n
      (fun i st => o ← vget (tj_ord st) i; if o =? -1 then tdfs (S n) g i st else Ok st) (tj_new n)) as (st & E & H1 & H2).
    - lia.
    - split; [apply tj_new_inv|lia].
    - intros i st Hi [Hinv Hvis]. destruct (ti_lens _ _ Hinv) as (L1 & L2 & L3). rewrite (vget_hl (tj_ord st) i) by lia. cbn [mbind res_bind].
      pose proof (ti_ord _ _ Hinv i) as Hoi. destruct (Z.eqb_spec (od st i) (-1)) as [E|E].
      + destruct (tdfs_ok (S n) (fun _ => False) i st) as (st' & seg & E' & Hi' & HP & _); auto; try lia.
        { pose proof (unset_le (tj_ord st)). lia. }
        { unfold visited. lia. }
        exists st'. split; [exact E'|]. split; [exact Hi'|]. intros x Hx. destruct (decide (x = i)) as [->|]; [apply (tp_u _ _ _ _ HP)|].
        unfold visited. destruct (tp_old _ _ _ _ HP x) as [-> _]; apply Hvis; lia.
      + exists st. split; [reflexivity|]. split; [exact Hinv|]. intros x Hx. destruct (decide (x = i)) as [->|]; [unfold visited; lia|apply Hvis; lia].
    - exists st. split; [unfold range; exact E|]. auto.
  Qed.

  Lemma color_ok (comps : list (list nat)) : (forall i c x, comps !! i = Some c -> x ∈ c -> (x < n)%nat) ->
    (forall i j c c' x, comps !! i = Some c -> comps !! j = Some c' -> x ∈ c -> x ∈ c' -> i = j) ->
    exists col, rfor (zip (range 0 (length comps)) comps) (fun ic color => rfor ic.2 (fun x color => vset color x ic.1) color) (replicate n 0%nat) = Ok col /\
      length col = n /\ forall i c x, comps !! i = Some c -> x ∈ c -> col !! x = Some i.
  Proof.
    intros Hlt Huniq.
    assert (forall i c, (i, c) ∈ zip (range 0 (length comps)) comps <-> comps !! i = Some c) as Hzip.
    { intros i c. rewrite elem_of_list_lookup. split.
      - intros [k Hk]. apply lookup_zip_with_Some in Hk as (x & y & [= -> ->] & H1 & H2).
        unfold range in H1. apply lookup_seq in H1 as [-> _]. cbn. exact H2.
      - intros H. exists i. apply lookup_zip_with_Some. exists i, c. split; [reflexivity|]. split; [|exact H].
        unfold range. apply lookup_seq. apply lookup_lt_Some in H. lia. }
    destruct (rfor_inv (fun dn col => length col = n /\ forall i c x, (i, c) ∈ dn -> x ∈ c -> col !! x = Some i)
      (zip (range 0 (length comps)) comps) (fun ic color => rfor ic.2 (fun x color => vset color x ic.1) color) (replicate n 0%nat))
      as (col & E & Hl & Hc).
    - split; [apply replicate_length|]. intros i c x H%elem_of_nil. done.
    - intros dn [i c] rest col Hsp [Hl Hc].
      assert (comps !! i = Some c) as Hic by (apply Hzip; rewrite Hsp; apply elem_of_app; right; apply elem_of_list_here).
      destruct (rfor_inv (fun dn' col' => length col' = n /\ (forall x, x ∈ dn' -> col' !! x = Some i) /\ forall x, x ∉ c -> col' !! x = col !! x)
        c (fun x color => vset color x i) col) as (col' & E & Hl' & H1 & H2).
      + split; [exact Hl|]. split; [intros x H%elem_of_nil; done|auto].
      + intros dn' x rest' col' Hc' (Hl' & H1 & H2). assert (x ∈ c) as Hx by (rewrite Hc'; apply elem_of_app; right; apply elem_of_list_here).
        pose proof (Hlt i c x Hic Hx) as Hxn. rewrite vset_ok by lia. eexists. split; [reflexivity|]. split; [rewrite insert_length; exact Hl'|]. split.
        * intros y Hy. destruct (decide (y = x)) as [->|Hne]; [apply list_lookup_insert; lia|]. rewrite list_lookup_insert_ne by done.
          apply H1. apply elem_of_app in Hy as [Hy|Hy%elem_of_list_singleton]; [exact Hy|congruence].
        * intros y Hy. rewrite list_lookup_insert_ne by (intros ->; contradiction). auto.
      + cbn [fst snd]. exists col'. split; [exact E|]. split; [exact Hl'|]. intros j c' x [Hj|[= -> ->]%elem_of_list_singleton]%elem_of_app Hx; [|auto].
        destruct (decide (x ∈ c)) as [Hxc|Hxc].
        * assert (comps !! j = Some c') as Hjc by (apply Hzip; rewrite Hsp; apply elem_of_app; left; exact Hj).
          rewrite (Huniq j i c' c x Hjc Hic Hx Hxc). auto.
        * rewrite (H2 x Hxc). eapply Hc; eauto.
    - exists col. split; [exact E|]. split; [exact Hl|]. intros i c x H Hx. eapply Hc; [apply Hzip; exact H|exact Hx].
  Qed.

  Lemma scc_ok : exists cnt col, scc g = Ok (cnt, col) /\ length col = n /\
    (forall u k, col !! u = Some k -> (k < cnt)%nat) /\
    (forall k, (k < cnt)%nat -> exists u, col !! u = Some k) /\
    (forall u v a b, col !! u = Some a -> col !! v = Some b -> (a = b <-> reach g u v /\ reach g v u)) /\
    (forall u v a b, edge g u v -> col !! u = Some a -> col !! v = Some b -> (b <= a)%nat).
  Proof.
    destruct scc_visit_ok as (st & E & Hinv & Hvis).
    destruct (color_ok (tj_comp st)) as (col & Ec & Hl & Hcol).
    { intros i c x H1 H2. apply (visited_lt _ _ _ Hinv). apply (ti_comp _ _ Hinv i x). exists c. auto. }
    { intros i j c c' x H1 H2 H3 H4. apply (ti_uniq _ _ Hinv i j x); [exists c|exists c']; auto. }
    assert (forall u k, col !! u = Some k <-> in_comp st k u) as Hin.
    { intros u k. split; [|intros (c & Hc & Hu); eapply Hcol; eauto].
      intros Hu. pose proof (lookup_lt_Some _ _ _ Hu) as Hul. destruct (ti_done _ _ Hinv u (Hvis u ltac:(lia))) as [Hs|(i & c & Hi & Hui)].
      - rewrite (idle_stack_empty st Hinv) in Hs. apply elem_of_nil in Hs. done.
      - rewrite (Hcol i c u Hi Hui) in Hu. injection Hu as <-. exists c. auto. }
    exists (length (tj_comp st)), col. split; [|split; [exact Hl|split; [|split; [|split]]]].
    - unfold scc. rewrite Hn. rewrite E. cbn [mbind res_bind]. rewrite Ec. reflexivity.
    - intros u k (c & Hc & _)%Hin. apply lookup_lt_Some in Hc. exact Hc.
    - intros k Hk. destruct (lookup_lt_is_Some_2 _ _ Hk) as [c Hc]. pose proof (ti_ne _ _ Hinv k c Hc) as Hne.
      destruct c as [|u c]; [congruence|]. exists u. eapply Hcol; [exact Hc|apply elem_of_list_here].
    - assert (forall u v a b, reach g u v -> in_comp st a u -> in_comp st b v -> (b <= a)%nat) as Hmono.
      { intros u v a b Hr. revert a. induction Hr as [u|u w v Huw _ IH]; intros a Ha Hb.
        - rewrite (ti_uniq _ _ Hinv a b u Ha Hb). lia.
        - destruct (ti_top _ _ Hinv a u w Ha Huw) as (j & Hj & Hw). specialize (IH j Hw Hb). lia. }
      intros u v a b Ha%Hin Hb%Hin. split.
      + intros <-. split; eapply (ti_mut _ _ Hinv); eauto.
      + intros [H1 H2]. pose proof (Hmono u v a b H1 Ha Hb). pose proof (Hmono v u b a H2 Hb Ha). lia.
    - intros u v a b He Ha%Hin Hb%Hin. destruct (ti_top _ _ Hinv a u v Ha He) as (j & Hj & Hv).
      rewrite (ti_uniq _ _ Hinv b j v Hb Hv). exact Hj.
  Qed.
End tarjan.
Close Scope Z_scope.
