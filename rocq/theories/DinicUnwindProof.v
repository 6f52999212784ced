(** Dinic after caught panics: proofs. *)
From stdpp Require Import relations.
From Verif Require Import Prelude ArraySpec IntModel Unwind DinicModel DinicSpec DinicProof DinicUnwindModel DinicUnwindCode DinicUnwindSpec LazyUnwindOps.
Open Scope Z_scope.

(** ** get_max_flow on a good network gives up only after an overflow *)
Lemma max_flow_caught T n es d s t :
  0 < it_max T -> it_min T <= 0 -> Z.of_nat n <= 2 ^ 31 - 1 -> (forall j, ecap es j <= it_max T) ->
  dinv n es d -> (s < n)%nat -> (t < n)%nat -> s <> t ->
  ends (fun v d' => 0 <= v <= it_max T /\ dinv n es d' /\ shifted es s t (dn_e d) (dn_e d') v /\ closed es n (dn_e d') s t (dn_h d'))
    (fun d' => dinv n es d' /\ exists v, it_max T < v /\ shifted es s t (dn_e d) (dn_e d') v) (dnu_max_flow T s t d).
Proof.
  intros HT HTm Hn Hcap Hd Hs Ht Hst. unfold dnu_max_flow, dnu_max_flow_for.
  apply ends_bind, ends_read. left. eexists. split; [reflexivity|]. rewrite (di_n _ _ _ Hd).
  apply ends_bind, ends_read. left. exists tt. split; [rewrite (di_n _ _ _ Hd); destruct (Nat.ltb_spec s n); [reflexivity|lia]|].
  apply ends_bind, ends_read. left. exists tt. split; [rewrite (di_n _ _ _ Hd); destruct (Nat.ltb_spec t n); [reflexivity|lia]|].
  apply (ends_loop (fun m (ans : Z) d' => dinv n es d' /\ 0 <= ans <= it_max T /\ shifted es s t (dn_e d) (dn_e d') ans /\
      ((exists dd, dist_ge es (dn_e d') s t dd /\ Z.of_nat n - dd < Z.of_nat m) \/ ans = it_max T))) with (m := S n); [|lia|].
  - intros m ans [dn e g cur h] (HD & Ha & Hv & Hm). cbn [dn_e dn_h dn_g dn_cur dn_n] in *. destruct HD. cbn [dn_e dn_h dn_g dn_cur dn_n] in *.
    unfold dnu_flow_step.
    destruct (bfs_ok es g n di_g e di_e Hn s t Hs Hst h di_h) as (b & h' & Eb & Hb).
    apply ends_bind. eapply ends_ok; [apply strip_Ok; rewrite strip_bfs; cbn [dn_e dn_g dn_h]; rewrite Eb; cbn [mbind res_bind fst snd]; reflexivity|].
    unfold with_h. cbn [dn_n dn_e dn_g dn_cur dn_h]. destruct b.
    2:{ cbn. split; [lia|]. split; [split; cbn; auto; apply Hb|]. auto. }
    apply ends_bind. eapply ends_ok; [apply uwrite_ok; cbn; reflexivity|]. cbn [dn_n dn_e dn_g dn_cur dn_h].
    apply ends_bind, ends_read. left. eexists. split; [reflexivity|]. cbn [dn_g].
    destruct (fdfs_ok T HTm es g n di_g Hcap h' (fo_len _ _ _ _ _ _ Hb) (fo_b _ _ _ _ _ _ Hb) Hn t (S (S (length g))) s (it_max T) e
      (replicate (length cur) 0%nat)) as (a & e' & cur' & Ed & HP & Hdead); auto; try lia.
    { pose proof (fo_s _ _ _ _ _ _ Hb). lia. }
    { pose proof (fo_s _ _ _ _ _ _ Hb). rewrite (gwf_len es g n di_g). lia. }
    { rewrite replicate_length. exact di_cur. }
    { intros x js i j c _ Hc Hi. apply lookup_replicate in Hc as [-> _]. lia. }
    apply ends_bind. eapply ends_ok; [apply strip_Ok; rewrite strip_dfs; cbn [dn_e dn_g dn_h dn_cur]; rewrite Ed; cbn [mbind res_bind fst snd]; reflexivity|].
    unfold with_ec. cbn [dn_n dn_e dn_g dn_cur dn_h].
    pose proof (dp_a _ _ _ _ _ _ _ _ _ _ _ HP) as Hab. pose proof (dp_wf _ _ _ _ _ _ _ _ _ _ _ HP) as Hwf'.
    assert (0 < a) as Hpos.
    { destruct (decide (a = 0)) as [->|]; [exfalso|lia]. apply (Hdead ltac:(lia)).
      rewrite (dp_same _ _ _ _ _ _ _ _ _ _ _ HP eq_refl). apply (fo_reach _ _ _ _ _ _ Hb). }
    assert (shifted es s t (dn_e d) e' (ans + a)) as Hv'.
    { intros y. rewrite (dp_net _ _ _ _ _ _ _ _ _ _ _ HP y), (Hv y). lia. }
    assert (dinv n es (DN dn e' g cur' h')) as HD'.
    { split; cbn; auto; try lia. rewrite (dp_cl _ _ _ _ _ _ _ _ _ _ _ HP), replicate_length. exact di_cur. apply (fo_len _ _ _ _ _ _ Hb). }
    apply ends_bind, ends_read. destruct (decide (ans + a <= it_max T)) as [Hlim|Hlim].
    2:{ right. split.
        - unfold iadd. rewrite chk_panic by (unfold in_ty; lia). reflexivity.
        - split; [exact HD'|]. exists (ans + a). split; [lia|exact Hv']. }
    left. exists (ans + a). split; [apply iadd_ok; unfold in_ty; lia|]. cbn [ends uret].
    destruct Hm as [(dd & Hdd & Hm)|Hlim']; [|lia].
    pose proof (Hdd h' (fo_s _ _ _ _ _ _ Hb) (fo_reach _ _ _ _ _ _ Hb)) as Hdl. pose proof (fo_b _ _ _ _ _ _ Hb t) as Htb.
    exists (Z.to_nat (Z.of_nat n - hl h' t)). split; [lia|]. split; [exact HD'|].
    split; [lia|]. split; [exact Hv'|].
    destruct (decide (a < it_max T)) as [Hlt|Hge]; [left|right; lia].
    exists (hl h' t + 1). split; [|lia]. cbn [dn_e].
    apply (phase_dist es n e e' s t h' Hst Hb (dp_le _ _ _ _ _ _ _ _ _ _ _ HP)). apply Hdead. exact Hlt.
  - split; [exact Hd|]. split; [lia|]. split; [intros x; lia|]. left. exists 0. split; [|lia].
    intros h Hh Hr. clear -Hh Hr. assert (forall y, rtc (lstep es h (dn_e d)) s y -> 0 <= hl h y) as H; [|auto].
    apply rtc_ind_r; [lia|]. intros y z Hy Hyz IH. destruct Hyz as (j & ? & ? & ? & ? & ?). lia.
Qed.

Lemma flow_refused T n es d s t : dinv n es d -> ~ ((s < n)%nat /\ (t < n)%nat) -> dnu_max_flow T s t d = Ok (d, None).
Proof.
  intros Hd Hb. unfold dnu_max_flow, dnu_max_flow_for. erewrite ubind_ok by reflexivity.
  destruct (Nat.ltb_spec s n) as [Hs|Hs].
  - erewrite ubind_ok; [|apply uread_ok; rewrite (di_n _ _ _ Hd); destruct (Nat.ltb_spec s n); [reflexivity|lia]].
    apply ubind_unwound, uread_panic. rewrite (di_n _ _ _ Hd). destruct (Nat.ltb_spec t n); [lia|reflexivity].
  - apply ubind_unwound, uread_panic. rewrite (di_n _ _ _ Hd). destruct (Nat.ltb_spec s n); [lia|reflexivity].
Qed.

Lemma caught_history T n : 0 < it_max T -> it_min T <= 0 -> Z.of_nat n <= 2 ^ 31 - 1 ->
  forall ops es d, Forall (no_half_edge T n) ops ->
  Forall (fun x => 0 <= x.2 <= it_max T) es -> dinv n es d ->
  exists d' outs, urun (dnu_step T) d ops = Ok (d', outs) /\ dn_after T n es (flow_of es (dn_e d)) ops outs.
Proof.
  intros HT HTm Hn ops. induction ops as [|o ops IH]; intros es d Hops Hes Hd; [eexists _, _; split; [reflexivity|constructor]|].
  inversion Hops as [|? ? Ho Hops']; subst. cbn [urun]. destruct o as [u v c|s t]; cbn [dnu_step].
  - destruct Ho as [Hc Hhalf]. destruct (decide (u < n)%nat) as [Hu|Hu].
    + specialize (Hhalf Hu). destruct (add_edge_ok n es d u v c Hd Hu Hhalf ltac:(lia)) as (d1 & E & Hd1 & _). pose proof (add_edge_flow n es d u v c d1 Hd E) as Hf.
      erewrite ubind_ok; [|apply strip_Ok; rewrite strip_dn_add_edge, E; reflexivity]. cbn [mbind res_bind uret].
      destruct (IH (es ++ [(u, v, c)]) d1 Hops') as (d2 & outs & -> & R); [|exact Hd1|].
      { apply Forall_app. split; [exact Hes|]. constructor; [exact Hc|constructor]. }
      cbn [mbind res_bind]. eexists _, _. split; [reflexivity|]. constructor; auto. rewrite <- Hf. exact R.
    + rewrite (ubind_unwound _ _ _ d).
      2: { unfold dnu_add_edge. erewrite ubind_ok by reflexivity. apply ubind_unwound, uwrite_panic.
           rewrite vget_panic; [reflexivity|]. rewrite (gwf_len _ _ _ (di_g _ _ _ Hd)). lia. }
      cbn [mbind res_bind]. destruct (IH es d Hops' Hes Hd) as (d2 & outs & -> & R). cbn [mbind res_bind].
      eexists _, _. split; [reflexivity|]. apply df_bad_edge; [lia|exact R].
  - destruct (decide ((s < n)%nat /\ (t < n)%nat)) as [[Hs Ht]|Hb].
    + destruct (decide (s = t)) as [<-|Hst].
      * destruct (max_flow_self T n es d s Hd Hn Hs) as (d1 & E & Hd1 & He).
        erewrite ubind_ok; [|apply strip_Ok; rewrite strip_dn_max_flow, E; reflexivity]. cbn [mbind res_bind uret].
        destruct (IH es d1 Hops' Hes Hd1) as (d2 & outs & -> & R). cbn [mbind res_bind]. eexists _, _. split; [reflexivity|]. constructor; [exact Hs|].
        rewrite <- He. exact R.
      * destruct (ends_inv _ _ _ (max_flow_caught T n es d s t HT HTm Hn
          ltac:(intros j; unfold ecap; destruct (es !! (j / 2)%nat) as [[[u v] c]|] eqn:E; [|lia];
            rewrite Forall_forall in Hes; apply (Hes (u, v, c)); eapply elem_of_list_lookup_2; exact E) Hd Hs Ht Hst)) as (d1 & o & E & H).
        unfold ubind. rewrite E. cbn [mbind res_bind]. destruct o as [v|].
        -- destruct H as (Hv & Hd1 & Hx & Hc). cbn [mbind res_bind uret]. destruct (IH es d1 Hops' Hes Hd1) as (d2 & outs & -> & R). cbn [mbind res_bind].
           eexists _, _. split; [reflexivity|]. apply (df_flow _ _ _ _ (flow_of es (dn_e d1))); auto; [|..|lia].
           ++ apply shifted_reroute; [apply Hd1|exact Hx].
           ++ eapply closed_most; eauto; apply Hd1.
        -- destruct H as (Hd1 & v & Hv & Hx). cbn [mbind res_bind uret]. destruct (IH es d1 Hops' Hes Hd1) as (d2 & outs & -> & R). cbn [mbind res_bind].
           eexists _, _. split; [reflexivity|]. apply (df_overflow _ _ _ _ (flow_of es (dn_e d1)) _ _ v); auto. apply shifted_reroute; [apply Hd1|exact Hx].
    + rewrite (ubind_unwound _ _ _ d) by (eapply flow_refused; eassumption). cbn [mbind res_bind].
      destruct (IH es d Hops' Hes Hd) as (d2 & outs & -> & R). cbn [mbind res_bind].
      eexists _, _. split; [reflexivity|]. apply df_bad_flow; assumption.
Qed.

(** ** After half an edge *)
(** What holds whenever a computation ends. *)
Definition whenever {X A} (P : A -> X -> Prop) (U : X -> Prop) (r : res (X * option A)) : Prop :=
  match r with Ok (s, Some a) => P a s | Ok (s, None) => U s | _ => True end.
Lemma whenever_bind {X A B} (P : B -> X -> Prop) U (m : uw X A) (k : A -> uw X B) s :
  whenever (fun a s' => whenever P U (k a s')) U (m s) -> whenever P U (ubind m k s).
Proof. unfold whenever, ubind. destruct (m s) as [[s' [a|]]| |]; cbn [mbind res_bind]; auto. Qed.
Lemma whenever_read {X A} (P : A -> X -> Prop) (U : X -> Prop) (r : X -> res A) s : U s -> (forall a, r s = Ok a -> P a s) -> whenever P U (uread r s).
Proof. unfold whenever, uread. destruct (r s); auto. Qed.
Lemma whenever_write {X} (P : unit -> X -> Prop) (U : X -> Prop) (w : X -> res X) s : U s -> (forall s', w s = Ok s' -> P tt s') -> whenever P U (uwrite w s).
Proof. unfold whenever, uwrite. destruct (w s); auto. Qed.
Lemma whenever_mono {X A} (P P' : A -> X -> Prop) (U : X -> Prop) r : whenever P U r -> (forall a s, P a s -> P' a s) -> whenever P' U r.
Proof. unfold whenever. destruct r as [[s' [a|]]| |]; auto. Qed.
Lemma whenever_loop {X B R} (I : B -> X -> Prop) (Q : R -> X -> Prop) (U : X -> Prop) (step : B -> uw X (B + R)) :
  (forall b s, I b s -> whenever (fun r s' => match r with inl b' => I b' s' | inr r => Q r s' end) U (step b s)) ->
  forall fuel b s, I b s -> whenever Q U (uloop fuel step b s).
Proof.
  intros H. induction fuel as [|fuel IH]; intros b s HI; [exact Logic.I|]. cbn [uloop]. apply whenever_bind.
  eapply whenever_mono; [apply H, HI|]. intros [b'|r] s' Hs; [apply IH, Hs|exact Hs].
Qed.

Section Half.
  Context (n u i v : nat).
  (** The half edge i at u, and the sizes of the arrays. *)
  Record stuck (d : dinic) : Prop := {
    st_g : length (dn_g d) = n;
    st_h : length (dn_h d) = n;
    st_v : (n <= v)%nat;
    st_at : exists js, dn_g d !! u = Some js /\ i ∈ js;
    st_e : exists c, 0 < c /\ dn_e d !! i = Some (v, c) }.

  Lemma stuck_set_h (P : unit -> dinic -> Prop) f d : stuck d -> (forall h, f (dn_h d) = Ok h -> length h = length (dn_h d) /\ P tt (with_h d h)) ->
    whenever (fun a d' => P a d' /\ stuck d') stuck (dnu_set_h f d).
  Proof.
    intros [] H. apply whenever_write; [split; auto|]. intros d' E. destruct (f (dn_h d)) as [h| |]; try discriminate. injection E as <-.
    destruct (H h eq_refl) as [Hl HP]. split; [exact HP|]. split; cbn; auto. lia.
  Qed.
  Lemma stuck_set_cur (P : unit -> dinic -> Prop) f d : stuck d -> (forall cur, P tt (with_ec d (dn_e d) cur)) ->
    whenever (fun a d' => P a d' /\ stuck d') stuck (dnu_set_cur f d).
  Proof.
    intros [] H. apply whenever_write; [split; auto|]. intros d' E. destruct (f (dn_cur d)) as [cur| |]; try discriminate. injection E as <-.
    split; [apply H|]. split; cbn; auto.
  Qed.

  Lemma stuck_scan w t es : forall q d, stuck d ->
    whenever (fun r d' => stuck d' /\ (r.1 = false -> (i ∉ es) /\ exists q', r.2 = q ++ q')) stuck (dnu_bfs_scan w t es q d).
  Proof.
    induction es as [|j es IH]; intros q d Hd; cbn [dnu_bfs_scan].
    { cbn. split; [exact Hd|]. intros _. split; [apply not_elem_of_nil|]. exists []. rewrite app_nil_r. reflexivity. }
    apply whenever_bind, whenever_read; [exact Hd|]. intros [x c] E1. apply vget_ok_iff in E1.
    assert (forall q0 d0 (X : (x < n)%nat \/ c <= 0), stuck d0 -> whenever (fun r d' => stuck d' /\ (r.1 = false -> (i ∉ j :: es) /\ exists q', r.2 = (q ++ q0) ++ q')) stuck (dnu_bfs_scan w t es (q ++ q0) d0)) as Hgo.
    { intros q0 d0 X H0. eapply whenever_mono; [apply IH, H0|]. intros [b q1] d1 [H1 H2]. split; [exact H1|]. intros Hb. destruct (H2 Hb) as [Hi Hq]. split; [|exact Hq].
      apply not_elem_of_cons. split; [|exact Hi]. intros Eij. destruct (st_e _ Hd) as (c0 & Hc0 & E0). rewrite Eij, E1 in E0. injection E0 as E3 E4. pose proof (st_v _ Hd). lia. }
    assert (forall q0 d0, (x < n)%nat \/ c <= 0 -> stuck d0 -> whenever (fun r d' => stuck d' /\ (r.1 = false -> (i ∉ j :: es) /\ exists q', r.2 = q ++ q')) stuck (dnu_bfs_scan w t es (q ++ q0) d0)) as Hgo'.
    { intros q0 d0 X H0. eapply whenever_mono; [apply Hgo; assumption|]. intros [b q1] d1 [H1 H2]. split; [exact H1|]. intros Hb. destruct (H2 Hb) as [Hi [q' ->]]. split; [exact Hi|].
      exists (q0 ++ q'). cbn. rewrite <- app_assoc. reflexivity. }
    pose proof (fun X H => Hgo' [] d X H) as Hnil. rewrite app_nil_r in Hnil.
    destruct (Z.ltb_spec 0 c) as [Hc|Hc]; [|apply Hnil; auto].
    apply whenever_bind, whenever_read; [exact Hd|]. intros hv E2. pose proof (vget_ok_iff (dn_h d) x hv) as [E2' _]. apply E2', lookup_lt_Some in E2. rewrite (st_h _ Hd) in E2.
    destruct (hv =? -1); [|apply Hnil; auto].
    apply whenever_bind, whenever_read; [exact Hd|]. intros k _. apply whenever_bind.
    eapply whenever_mono; [apply (stuck_set_h (fun _ _ => True)); [exact Hd|]|].
    - intros h E. unfold vset in E. case_match; [|discriminate]. injection E as <-. rewrite insert_length. auto.
    - intros [] d' [_ Hd']. destruct (x =? t)%nat; [cbn; split; [exact Hd'|discriminate]|]. apply Hgo'; auto.
  Qed.

  Lemma stuck_bfs s t d : stuck d -> whenever (fun b d' => stuck d' /\ (s = u -> b = true)) stuck (dnu_bfs s t d).
  Proof.
    intros Hd. unfold dnu_bfs. apply whenever_bind. eapply whenever_mono; [apply (stuck_set_h (fun _ _ => True)); [exact Hd|]|].
    { intros h [= <-]. rewrite replicate_length. auto. }
    intros [] d1 [_ H1]. apply whenever_bind. eapply whenever_mono; [apply (stuck_set_h (fun _ _ => True)); [exact H1|]|].
    { intros h E. unfold vset in E. case_match; [|discriminate]. injection E as <-. rewrite insert_length. auto. }
    intros [] d2 [_ H2]. apply whenever_bind, whenever_read; [exact H2|]. intros k _.
    apply (whenever_loop (fun q d => stuck d /\ (s = u -> u ∈ q))).
    - intros q d3 [H3 Hq]. unfold dnu_bfs_step. destruct q as [|w q].
      { cbn. split; [exact H3|]. intros E. specialize (Hq E). apply elem_of_nil in Hq. contradiction. }
      apply whenever_bind, whenever_read; [exact H3|]. intros es Ees. apply vget_ok_iff in Ees. apply whenever_bind. eapply whenever_mono; [apply stuck_scan, H3|].
      intros [[] q'] d4 [H4 Hr]; cbn [fst snd] in *; cbn; [auto|]. split; [exact H4|]. destruct (Hr eq_refl) as [Hi (q1 & ->)]. intros E. specialize (Hq E).
      apply elem_of_cons in Hq as [<-|Hq].
      + destruct (st_at _ H3) as (js & Ejs & Hj). rewrite Ees in Ejs. injection Ejs as ->. contradiction.
      + apply elem_of_app. auto.
    - split; [exact H2|]. intros ->. apply elem_of_list_singleton. reflexivity.
  Qed.

  Lemma stuck_dfs T t fuel : forall w f d, 0 <= f -> stuck d -> whenever (fun a d' => stuck d' /\ 0 <= a <= f) stuck (dnu_dfs fuel T t w f d).
  Proof.
    induction fuel as [|fuel IH]; intros w f d Hf Hd; [exact Logic.I|]. cbn [dnu_dfs]. destruct (w =? t)%nat; [cbn; auto with lia|].
    apply whenever_bind, whenever_read; [exact Hd|]. intros i0 _. apply whenever_bind, whenever_read; [exact Hd|]. intros js0 _. apply whenever_bind.
    apply (whenever_mono (fun r d' => stuck d' /\ 0 <= r <= f)).
    2: { intros r d' [Hd' Hr]. apply whenever_read; [exact Hd'|]. intros a E. split; [exact Hd'|]. unfold isub, chk in E. case_match; [|discriminate]. injection E as <-. lia. }
    apply (whenever_loop (fun (x : Z * nat) d' => stuck d' /\ 0 <= x.1 <= f)); [|cbn; auto with lia].
    clear d Hd i0 js0. intros [r i1] d [Hd Hr]. cbn [fst] in Hr. unfold dnu_dfs_step.
    apply whenever_bind, whenever_read; [exact Hd|]. intros js _. destruct (i1 <? length js)%nat; [|cbn; auto].
    apply whenever_bind, whenever_read; [exact Hd|]. intros j _. apply whenever_bind, whenever_read; [exact Hd|]. intros [x c] Ej. apply vget_ok_iff in Ej.
    apply whenever_bind, whenever_read; [exact Hd|]. intros b Eb.
    assert (forall r d', stuck d' -> 0 <= r <= f -> whenever (fun (o : Z * nat + Z) s' => match o with inl b' => stuck s' /\ 0 <= b'.1 <= f | inr r0 => stuck s' /\ 0 <= r0 <= f end) stuck
      (ubind (dnu_set_cur (fun cur => vset cur w (i1 + 1)%nat)) (fun _ => uret (inl (r, (i1 + 1)%nat))) d')) as Hcur.
    { intros r' d' H' Hr'. apply whenever_bind. eapply whenever_mono; [apply (stuck_set_cur (fun _ _ => True)); [exact H'|auto]|]. intros [] d'' [_ H'']. cbn. auto. }
    destruct b; [|apply Hcur; assumption].
    assert (0 < c /\ (x < n)%nat) as [Hc Hx].
    { destruct (Z.ltb_spec 0 c); [|discriminate]. split; [assumption|]. apply rbind_ok_inv in Eb as (hv & E & _). apply vget_ok_iff, lookup_lt_Some in E. rewrite (st_h _ Hd) in E. exact E. }
    assert (j <> i) as Hji. { intros Eij. destruct (st_e _ Hd) as (c0 & _ & E0). rewrite <- Eij, Ej in E0. injection E0 as E3 _. pose proof (st_v _ Hd). lia. }
    apply whenever_bind. eapply whenever_mono; [apply IH; [lia|exact Hd]|]. intros a d1 [H1 Ha].
    apply whenever_bind, whenever_write; [exact H1|]. intros d2 E2. apply rbind_ok_inv in E2 as (e2 & E2 & [= <-]).
    apply rbind_ok_inv in E2 as (ej & _ & E2). apply rbind_ok_inv in E2 as (c' & _ & E2). unfold vset in E2. case_match; [|discriminate]. injection E2 as <-.
    match goal with |- whenever _ _ (ubind _ _ ?dd) => assert (stuck dd) as H2 end.
    { destruct H1 as [A1 A2 A3 A4 A5]. split; cbn; auto. rewrite list_lookup_insert_ne by congruence. exact A5. }
    revert H2. match goal with |- stuck ?dd -> _ => generalize dd end. intros d2 H2.
    apply whenever_bind, whenever_write; [exact H2|]. intros d3 E3. apply rbind_ok_inv in E3 as (e3 & E3 & [= <-]).
    apply rbind_ok_inv in E3 as (ek & Ek & E3). apply rbind_ok_inv in E3 as (ck & Eck & E3). unfold vset in E3. case_match; [|discriminate]. injection E3 as <-.
    apply vget_ok_iff in Ek. unfold iadd, chk in Eck. case_match; [|discriminate]. injection Eck as <-.
    match goal with |- whenever _ _ (ubind _ _ ?dd) => assert (stuck dd) as Hs3 end.
    { destruct H2 as [A1 A2 A3 A4 (c0 & Hc0 & A5)]. split; cbn; auto. destruct (decide (Nat.lxor j 1 = i)) as [Ei|Ei].
      - rewrite Ei in *. rewrite A5 in Ek. injection Ek as <-. exists (c0 + a). split; [lia|]. apply list_lookup_insert. eapply lookup_lt_Some. exact A5.
      - exists c0. split; [exact Hc0|]. rewrite list_lookup_insert_ne by congruence. exact A5. }
    revert Hs3. match goal with |- stuck ?dd -> _ => generalize dd end. intros d3 Hs3.
    apply whenever_bind, whenever_read; [exact Hs3|]. intros r' Er. unfold isub, chk in Er. case_match; [|discriminate]. injection Er as <-.
    destruct (r - a =? 0); [cbn; split; [exact Hs3|lia]|]. apply Hcur; [exact Hs3|lia].
  Qed.

  Lemma stuck_flow k T s t d : 0 <= it_max T -> stuck d -> whenever (fun _ d' => stuck d' /\ s <> u) stuck (dnu_max_flow_for k T s t d).
  Proof.
    intros HT Hd. unfold dnu_max_flow_for. apply whenever_bind, whenever_read; [exact Hd|]. intros [] _. apply whenever_bind, whenever_read; [exact Hd|]. intros [] _.
    apply (whenever_loop (fun _ d' => stuck d')); [|exact Hd]. clear d Hd. intros ans d Hd. unfold dnu_flow_step. apply whenever_bind.
    eapply whenever_mono; [apply stuck_bfs, Hd|]. intros b d1 [H1 Hb]. destruct b.
    2: { cbn. split; [exact H1|]. intros E. specialize (Hb E). discriminate. }
    apply whenever_bind. eapply whenever_mono; [apply (stuck_set_cur (fun _ _ => True)); [exact H1|auto]|]. intros [] d2 [_ H2].
    apply whenever_bind, whenever_read; [exact H2|]. intros fuel _. apply whenever_bind. eapply whenever_mono; [apply stuck_dfs; [exact HT|exact H2]|].
    intros a d3 [H3 _]. apply whenever_bind, whenever_read; [exact H3|]. intros ans' _. exact H3.
  Qed.

  Lemma stuck_edge x y c d : stuck d -> whenever (fun _ d' => stuck d') stuck (dnu_add_edge x y c d).
  Proof.
    assert (forall w k d, stuck d -> whenever (fun _ d' => stuck d') stuck (dnu_set_g (fun g => gu ← vget g w; vset g w (gu ++ [k])) d)) as Hg.
    { intros w k d1 H1. apply whenever_write; [exact H1|]. intros d2 E. apply rbind_ok_inv in E as (g' & E & [= <-]). apply rbind_ok_inv in E as (gu & E1 & E2). apply vget_ok_iff in E1.
      unfold vset in E2. case_match; [|discriminate]. injection E2 as <-. destruct H1 as [A1 A2 A3 (js & A4 & A4') A5]. split; cbn; auto; [rewrite insert_length; auto|].
      destruct (decide (w = u)) as [->|Hne].
      - rewrite list_lookup_insert by assumption. eexists. split; [reflexivity|]. rewrite E1 in A4. injection A4 as ->. apply elem_of_app. auto.
      - rewrite list_lookup_insert_ne by exact Hne. eauto. }
    assert (forall x d, stuck d -> whenever (fun _ d' => stuck d') stuck (dnu_set_e (fun e => Ok (e ++ [x])) d)) as He.
    { intros z d1 H1. apply whenever_write; [exact H1|]. intros d2 [= <-]. destruct H1 as [A1 A2 A3 A4 (c0 & Hc0 & A5)]. split; cbn; auto. exists c0. split; [exact Hc0|].
      rewrite lookup_app_l; [exact A5|]. eapply lookup_lt_Some. exact A5. }
    intros Hd. unfold dnu_add_edge. apply whenever_bind, whenever_read; [exact Hd|]. intros k _. apply whenever_bind. eapply whenever_mono; [apply Hg, Hd|]. intros ? d1 H1.
    apply whenever_bind. eapply whenever_mono; [apply He, H1|]. intros ? d2 H2. apply whenever_bind, whenever_read; [exact H2|]. intros k' _.
    apply whenever_bind. eapply whenever_mono; [apply Hg, H2|]. intros ? d3 H3. apply He, H3.
  Qed.

  Lemma stuck_history k T ops : 0 <= it_max T -> forall d d' outs, stuck d -> urun (dnu_step_for k T) d ops = Ok (d', outs) ->
    Forall2 (fun o out => match o with DnFlow s _ => s = u -> out = None | DnEdge _ _ _ => True end) ops outs.
  Proof.
    intros HT. induction ops as [|o ops IH]; intros d d' outs Hd E; cbn [urun] in E; [injection E as <- <-; constructor|].
    apply rbind_ok_inv in E as ([d1 out] & E1 & E). apply rbind_ok_inv in E as ([d2 outs'] & E2 & [= <- <-]).
    assert (stuck d1 /\ match o with DnFlow s _ => s = u -> out = None | DnEdge _ _ _ => True end) as [H1 Ho].
    { destruct o as [x y c|s t]; cbn [dnu_step_for] in E1.
      - pose proof (stuck_edge x y c d Hd) as H. unfold ubind in E1. destruct (dnu_add_edge x y c d) as [[d3 [[]|]]| |]; cbn in *; try discriminate; injection E1 as <- <-; auto.
      - pose proof (stuck_flow k T s t d HT Hd) as H. unfold ubind in E1. destruct (dnu_max_flow_for k T s t d) as [[d3 [a|]]| |]; cbn in *; try discriminate; injection E1 as <- <-.
        + destruct H as [H Hs]. split; [exact H|]. intros E. contradiction.
        + auto. }
    constructor; [exact Ho|]. eapply IH; eassumption.
  Qed.
End Half.

(** The sizes of the arrays never change. *)
Definition sized (n : nat) (d : dinic) : Prop := length (dn_g d) = n /\ length (dn_h d) = n.
Lemma sized_e n f d : sized n d -> whenever (fun _ => sized n) (sized n) (dnu_set_e f d).
Proof. intros H. apply whenever_write; [exact H|]. intros d' E. apply rbind_ok_inv in E as (? & _ & [= <-]). exact H. Qed.
Lemma sized_cur n f d : sized n d -> whenever (fun _ => sized n) (sized n) (dnu_set_cur f d).
Proof. intros H. apply whenever_write; [exact H|]. intros d' E. apply rbind_ok_inv in E as (? & _ & [= <-]). exact H. Qed.
Lemma sized_h n f d : (forall h h', f h = Ok h' -> length h' = length h) -> sized n d -> whenever (fun _ => sized n) (sized n) (dnu_set_h f d).
Proof. intros Hf [H1 H2]. apply whenever_write; [split; auto|]. intros d' E. apply rbind_ok_inv in E as (? & E & [= <-]). apply Hf in E. split; cbn; congruence. Qed.
Lemma sized_g n f d : (forall g g', f g = Ok g' -> length g' = length g) -> sized n d -> whenever (fun _ => sized n) (sized n) (dnu_set_g f d).
Proof. intros Hf [H1 H2]. apply whenever_write; [split; auto|]. intros d' E. apply rbind_ok_inv in E as (? & E & [= <-]). apply Hf in E. split; cbn; congruence. Qed.
Lemma vset_length {A} (l l' : list A) k x : vset l k x = Ok l' -> length l' = length l.
Proof. unfold vset. case_match; [|discriminate]. intros [= <-]. apply insert_length. Qed.
Lemma sized_scan n w t es : forall q d, sized n d -> whenever (fun _ => sized n) (sized n) (dnu_bfs_scan w t es q d).
Proof.
  induction es as [|j es IH]; intros q d H; cbn [dnu_bfs_scan]; [exact H|]. apply whenever_bind, whenever_read; [exact H|]. intros [x c] _.
  destruct (0 <? c); [|apply IH, H]. apply whenever_bind, whenever_read; [exact H|]. intros hv _. destruct (hv =? -1); [|apply IH, H].
  apply whenever_bind, whenever_read; [exact H|]. intros k _. apply whenever_bind. eapply whenever_mono; [apply sized_h; [intros; eapply vset_length; eassumption|exact H]|].
  intros ? d1 H1. destruct (x =? t)%nat; [exact H1|apply IH, H1].
Qed.
Lemma sized_bfs n s t d : sized n d -> whenever (fun _ => sized n) (sized n) (dnu_bfs s t d).
Proof.
  intros H. unfold dnu_bfs. apply whenever_bind. eapply whenever_mono; [apply sized_h; [intros h h' [= <-]; apply replicate_length|exact H]|].
  intros ? d1 H1. apply whenever_bind. eapply whenever_mono; [apply sized_h; [intros; eapply vset_length; eassumption|exact H1]|].
  intros ? d2 H2. apply whenever_bind, whenever_read; [exact H2|]. intros k _. apply (whenever_loop (fun _ => sized n)); [|exact H2].
  intros [|w q] d3 H3; cbn [dnu_bfs_step]; [exact H3|]. apply whenever_bind, whenever_read; [exact H3|]. intros es _. apply whenever_bind.
  eapply whenever_mono; [apply sized_scan, H3|]. intros [[] q'] d4 H4; exact H4.
Qed.
Lemma sized_dfs n T t fuel : forall w f d, sized n d -> whenever (fun _ => sized n) (sized n) (dnu_dfs fuel T t w f d).
Proof.
  induction fuel as [|fuel IH]; intros w f d H; [exact Logic.I|]. cbn [dnu_dfs]. destruct (w =? t)%nat; [exact H|].
  apply whenever_bind, whenever_read; [exact H|]. intros i0 _. apply whenever_bind, whenever_read; [exact H|]. intros js0 _. apply whenever_bind.
  apply (whenever_mono (fun _ => sized n)); [|intros r d' H'; apply whenever_read; auto].
  apply (whenever_loop (fun _ => sized n)); [|exact H]. clear d H. intros [r i] d H. unfold dnu_dfs_step.
  apply whenever_bind, whenever_read; [exact H|]. intros js _. destruct (i <? length js)%nat; [|exact H].
  apply whenever_bind, whenever_read; [exact H|]. intros j _. apply whenever_bind, whenever_read; [exact H|]. intros [x c] _.
  apply whenever_bind, whenever_read; [exact H|]. intros b _. destruct b.
  - apply whenever_bind. eapply whenever_mono; [apply IH, H|]. intros a d1 H1. apply whenever_bind. eapply whenever_mono; [apply sized_e, H1|]. intros ? d2 H2.
    apply whenever_bind. eapply whenever_mono; [apply sized_e, H2|]. intros ? d3 H3. apply whenever_bind, whenever_read; [exact H3|]. intros r' _.
    destruct (r' =? 0); [exact H3|]. apply whenever_bind. eapply whenever_mono; [apply sized_cur, H3|]. intros ? d4 H4. exact H4.
  - apply whenever_bind. eapply whenever_mono; [apply sized_cur, H|]. intros ? d4 H4. exact H4.
Qed.
Lemma sized_step n k T o d : sized n d -> whenever (fun _ => sized n) (sized n) (dnu_step_for k T o d).
Proof.
  intros H. assert (forall w k (g g' : list (list nat)), (gu ← vget g w; vset g w (gu ++ [k])) = Ok g' -> length g' = length g) as Hg.
  { intros w j g g' E. apply rbind_ok_inv in E as (? & _ & E). eapply vset_length; eassumption. }
  destruct o as [x y c|s t]; cbn [dnu_step_for]; apply whenever_bind.
  - unfold dnu_add_edge. apply whenever_bind, whenever_read; [exact H|]. intros k1 _. apply whenever_bind. eapply whenever_mono; [apply sized_g; [apply Hg|exact H]|]. intros ? d1 H1.
    apply whenever_bind. eapply whenever_mono; [apply sized_e, H1|]. intros ? d2 H2. apply whenever_bind, whenever_read; [exact H2|]. intros k' _.
    apply whenever_bind. eapply whenever_mono; [apply sized_g; [apply Hg|exact H2]|]. intros ? d3 H3. eapply whenever_mono; [apply sized_e, H3|]. intros ? d4 H4. exact H4.
  - unfold dnu_max_flow_for. apply whenever_bind, whenever_read; [exact H|]. intros _ _. apply whenever_bind, whenever_read; [exact H|]. intros _ _.
    eapply whenever_mono; [apply (whenever_loop (fun _ => sized n) (fun _ => sized n)); [|exact H]|intros a d1 H1; exact H1].
    clear d H. intros ans d H. unfold dnu_flow_step. apply whenever_bind. eapply whenever_mono; [apply sized_bfs, H|]. intros b d1 H1. destruct b; [|exact H1].
    apply whenever_bind. eapply whenever_mono; [apply sized_cur, H1|]. intros ? d2 H2. apply whenever_bind, whenever_read; [exact H2|]. intros fuel _.
    apply whenever_bind. eapply whenever_mono; [apply sized_dfs, H2|]. intros ? d3 H3. apply whenever_bind, whenever_read; [exact H3|]. intros ans' _. exact H3.
Qed.
Lemma half_edge_stuck n u v c d : sized n d -> (u < n)%nat -> (n <= v)%nat -> 0 < c ->
  exists d', dnu_add_edge u v c d = Ok (d', None) /\ stuck n u (length (dn_e d)) v d'.
Proof.
  intros [Hg Hh] Hu Hv Hc. unfold dnu_add_edge. erewrite ubind_ok by reflexivity. destruct (vget_lt (dn_g d) u ltac:(lia)) as (gu & E & Hgu).
  erewrite ubind_ok; [|apply uwrite_ok; rewrite E; cbn [mbind res_bind]; rewrite vset_ok by lia; cbn [mbind res_bind]; reflexivity].
  erewrite ubind_ok by (apply uwrite_ok; cbn; reflexivity). erewrite ubind_ok by reflexivity.
  eexists. split.
  - apply ubind_unwound, uwrite_panic. cbn [dn_g]. rewrite vget_panic by (rewrite insert_length; lia). reflexivity.
  - split; cbn; auto; [rewrite insert_length; exact Hg| |].
    + rewrite list_lookup_insert by lia. eexists. split; [reflexivity|]. apply elem_of_app. right. apply elem_of_list_singleton. reflexivity.
    + exists c. split; [exact Hc|]. rewrite lookup_app_r by lia. rewrite Nat.sub_diag. reflexivity.
Qed.
Lemma half_history k T n u v c ops2 : 0 <= it_max T -> (u < n)%nat -> (n <= v)%nat -> 0 < c -> forall ops1 d d' outs, sized n d ->
  urun (dnu_step_for k T) d (ops1 ++ DnEdge u v c :: ops2) = Ok (d', outs) ->
  Forall2 (fun o out => match o with DnFlow s _ => s = u -> out = None | DnEdge _ _ _ => True end) ops2 (drop (S (length ops1)) outs).
Proof.
  intros HT Hu Hv Hc. induction ops1 as [|o ops1 IH]; intros d d' outs Hd E; cbn [app urun length] in E.
  - apply rbind_ok_inv in E as ([d1 out] & E1 & E). apply rbind_ok_inv in E as ([d2 outs'] & E2 & [= <- <-]). cbn [drop length].
    destruct (half_edge_stuck n u v c d Hd Hu Hv Hc) as (d3 & E3 & H3). cbn [dnu_step_for] in E1. rewrite (ubind_unwound _ _ _ _ E3) in E1. injection E1 as <- <-.
    replace (drop 0 outs') with outs' by reflexivity. eapply stuck_history; eassumption.
  - apply rbind_ok_inv in E as ([d1 out] & E1 & E). apply rbind_ok_inv in E as ([d2 outs'] & E2 & [= <- <-]). cbn [drop length].
    apply (IH d1 d2); [|exact E2]. pose proof (sized_step n k T o d Hd) as H. rewrite E1 in H. destruct out; exact H.
Qed.
Close Scope Z_scope.
