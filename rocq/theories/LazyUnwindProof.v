(** A lazy segment tree whose operation may panic, after any history of caught panics. *)
From Verif Require Import Prelude UtilModel UtilProof ArraySpec PartialOps SegtreeModel SegtreeProof SegtreeChkModel LazySpec LazyModel LazyProof LazyTop
  LazyChkModel Unwind LazyUnwindModel TreeUnwindSpec LazyUnwindSpec LazyUnwindGhost.

Section Proof.
  Context {S F : Type} (e : S) (op : S -> S -> S) (idm : F) (mapping : F -> S -> S) (comp : F -> F -> F).
  Context (L : monoid_laws e op) (ML : map_laws op idm mapping comp).
  Context (opc : S -> S -> res S) (O : or_panics op opc).
  Local Notation mapc := (fun f x => Ok (mapping f x)).
  Local Notation compc := (fun f g => Ok (comp f g)).
  Local Notation gmap := (gmap mapping).
  Local Notation gcomp := (gcomp comp).
  Local Notation gtree := (tree (list (list S)) (list F)).
  Local Notation Rel := (Rel e op).
  Local Notation GR log g A C := (R (@nil (list S)) app [idm] gmap log g A all C).
  Local Notation GL := (@glaws S).
  Local Notation GML := (gmaplaws op idm mapping comp ML).
  Implicit Types (s : tree S F) (g : gtree) (size k : nat) (cells : list (list S)) (t : lazytree S F).

  (** ** Words with more candidates *)
  Definition wle (w w' : list (list S)) : Prop := Forall2 (fun c c' => c ⊆ c') w w'.
  Lemma wle_refl w : wle w w.
  Proof. induction w; constructor; auto. Qed.
  Lemma wle_trans w1 w2 w3 : wle w1 w2 -> wle w2 w3 -> wle w1 w3.
  Proof. intros H. revert w3. induction H as [|c c' w w' Hc H IH]; intros w3 H3; inversion H3; subst; constructor; [intros z Hz; auto|apply IH; assumption]. Qed.
  Lemma wle_app w1 w2 v1 v2 : wle w1 v1 -> wle w2 v2 -> wle (w1 ++ w2) (v1 ++ v2).
  Proof. apply Forall2_app. Qed.
  Lemma rep_wle v w w' : wle w w' -> rep e op v w -> rep e op v w'.
  Proof.
    intros H (Hw & ys & Hc & ->). split; [intros ->; inversion H; subst; contradiction|]. exists ys. split; [|reflexivity].
    unfold choice in *. clear Hw. revert w' H. induction Hc as [|c y w ys Hy Hc IH]; intros w' H; inversion H; subst; constructor; auto.
  Qed.
  Lemma gmap_wle f w : wle w (gmap [f; idm] w).
  Proof.
    unfold wle, LazyUnwindGhost.gmap. induction w as [|c w IH]; constructor; [|exact IH]. intros x Hx. unfold gmapc. cbn. rewrite app_nil_r.
    apply elem_of_app. right. apply elem_of_list_In, in_map_iff. exists x. split; [apply (mpl_id _ _ _ _ ML)|apply elem_of_list_In; exact Hx].
  Qed.

  (** ** update: the real tree may stop, the shadow goes on *)
  Lemma sim_update size k s g g' : Rel size s g -> k < size -> 0 < k -> lt_update app g k = Ok g' ->
    ltu_update opc k s = Ok (s, None) \/ exists s', ltu_update opc k s = Ok (s', Some tt) /\ Rel size s' g'.
  Proof.
    intros HR Hk H0 E. destruct g as [gd glz]. unfold lt_update in E.
    destruct (vget gd (2 * k)) as [w1| |] eqn:E1; cbn [mbind res_bind] in E; [|discriminate|discriminate].
    destruct (vget gd (2 * k + 1)) as [w2| |] eqn:E2; cbn [mbind res_bind] in E; [|discriminate|discriminate].
    destruct (vset gd k (w1 ++ w2)) as [gd'| |] eqn:E3; cbn [mbind res_bind] in E; [|discriminate|discriminate].
    apply vset_inv in E3 as [Hl ->]. injection E as <-.
    destruct (Rel_read e op size s (gd, glz) (2 * k) w1 HR E1) as (v1 & V1 & X1 & Y1).
    destruct (Rel_read e op size s (gd, glz) (2 * k + 1) w2 HR E2) as (v2 & V2 & X2 & Y2).
    pose proof (re_d _ _ _ _ _ HR) as Hd. cbn [fst] in Hd.
    unfold ltu_update, uwrite, ltc_update. destruct s as [d lz]. cbn [fst snd] in *.
    rewrite V1. cbn [mbind res_bind]. rewrite V2. cbn [mbind res_bind].
    destruct (O v1 v2) as [-> | ->]; cbn [mbind res_bind]; [right|left; reflexivity].
    rewrite vset_ok by lia. cbn [mbind res_bind]. eexists. split; [reflexivity|].
    apply (Rel_write e op size (d, lz) (gd, glz)); [exact HR| |lia]. intros _.
    apply rep_app; [exact L| |]; [apply (re_rep _ _ _ _ _ HR (2 * k))|apply (re_rep _ _ _ _ _ HR (2 * k + 1))]; assumption || lia.
  Qed.

  (** nodes of a set hold words within those of their children *)
  Definition GD g k : list (list S) := D (@nil (list S)) g k.
  Definition Mono (B : nat -> Prop) g : Prop := forall k, B k -> wle (GD g k) (GD g (2 * k) ++ GD g (2 * k + 1)).

  Lemma update_GD g k g' : lt_update app g k = Ok g' -> k < length g.1 /\ length g'.1 = length g.1 /\ g'.2 = g.2 /\
    forall x, GD g' x = if decide (x = k) then GD g (2 * k) ++ GD g (2 * k + 1) else GD g x.
  Proof.
    intros E. destruct g as [gd glz]. unfold lt_update in E.
    destruct (vget gd (2 * k)) as [w1| |] eqn:E1; cbn [mbind res_bind] in E; [|discriminate|discriminate].
    destruct (vget gd (2 * k + 1)) as [w2| |] eqn:E2; cbn [mbind res_bind] in E; [|discriminate|discriminate].
    destruct (vset gd k (w1 ++ w2)) as [gd'| |] eqn:E3; cbn [mbind res_bind] in E; [|discriminate|discriminate].
    apply vset_inv in E3 as [Hl ->]. injection E as <-. apply vget_some in E1, E2.
    split; [exact Hl|]. split; [cbn; apply insert_length|]. split; [reflexivity|]. intros x. unfold GD, D. cbn [fst].
    rewrite (default_insert [] gd k (w1 ++ w2) x) by exact Hl. destruct (decide (x = k)); [|reflexivity]. rewrite E1, E2. reflexivity.
  Qed.
  Lemma Mono_update (B : nat -> Prop) g k g' : B k -> 0 < k -> Mono B g -> lt_update app g k = Ok g' -> Mono B g'.
  Proof.
    intros HB H0 HM E. destruct (update_GD g k g' E) as (_ & _ & _ & H).
    assert (forall x, wle (GD g x) (GD g' x)) as Hle.
    { intros x. rewrite H. destruct (decide (x = k)) as [->|]; [apply HM; exact HB|apply wle_refl]. }
    intros x Hx. rewrite (H x). destruct (decide (x = k)) as [->|Hne].
    - apply wle_app; apply Hle.
    - eapply wle_trans; [apply HM; exact Hx|]. apply wle_app; apply Hle.
  Qed.
  Lemma weak_update (B : nat -> Prop) size s g k g' : B k -> k < size -> Mono B g -> Rel size s g -> lt_update app g k = Ok g' -> Rel size s g'.
  Proof.
    intros HB Hk HM HR E. destruct (update_GD g k g' E) as (Hl & Hlen & Hlz & H). destruct HR as [H1 H2 H3 H4].
    assert (forall x w, g'.1 !! x = Some w -> exists w0, g.1 !! x = Some w0 /\ wle w0 w /\ (x <> k -> w0 = w)) as Hx.
    { intros x w Ew. assert (x < length g.1) as Hx by (rewrite <- Hlen; apply lookup_lt_Some in Ew; exact Ew).
      destruct (lookup_lt_is_Some_2 g.1 x Hx) as [w0 E0]. exists w0. split; [exact E0|].
      pose proof (H x) as Hx'. unfold GD at 1 in Hx'. unfold D in Hx'. rewrite Ew in Hx'. cbn in Hx'. rewrite Hx'.
      destruct (decide (x = k)) as [->|Hne].
      - split; [|congruence]. assert (GD g k = w0) as <- by (unfold GD, D; rewrite E0; reflexivity). apply HM. exact HB.
      - unfold GD, D. rewrite E0. cbn. split; [apply wle_refl|reflexivity]. }
    split.
    - congruence.
    - rewrite Hlz. exact H2.
    - intros x v w H0 Ev Ew. destruct (Hx x w Ew) as (w0 & E0 & Hw & _). apply (rep_wle v w0); [exact Hw|]. apply (H3 x); assumption.
    - intros x v w Hs Ev Ew. destruct (Hx x w Ew) as (w0 & E0 & _ & Hw). rewrite <- Hw by lia. apply (H4 x); assumption.
  Qed.

  (** A loop of updates: [c] is the list of nodes to be updated by a turn. *)
  Definition gups (ks : list nat) g : res gtree := rfor ks (fun k g => lt_update app g k) g.
  Definition ups (ks : list nat) : uw (tree S F) unit := ufor ks (fun k _ => ltu_update opc k) tt.
  Lemma gups_weak (B : nat -> Prop) size s ks : Forall (fun k => B k /\ 0 < k < size) ks -> forall g g', Mono B g -> Rel size s g -> gups ks g = Ok g' -> Rel size s g'.
  Proof.
    intros H. induction H as [|k ks [HB Hk] H IH]; intros g g' HM HR E; cbn [gups rfor] in E; [injection E as <-; exact HR|].
    destruct (lt_update app g k) as [g1| |] eqn:E1; cbn [mbind res_bind] in E; [|discriminate|discriminate].
    apply (IH g1); [|eapply (weak_update B); try eassumption; lia|exact E]. eapply Mono_update; try eassumption; lia.
  Qed.
  Lemma sim_ups (B : nat -> Prop) size ks : Forall (fun k => B k /\ 0 < k < size) ks -> forall s g g', Rel size s g -> gups ks g = Ok g' ->
    exists s' o, ups ks s = Ok (s', o) /\ (o = Some tt -> Rel size s' g') /\ (Mono B g -> Rel size s' g').
  Proof.
    intros H. induction H as [|k ks [HB Hk] H IH]; intros s g g' HR E; cbn [gups rfor] in E.
    - injection E as <-. exists s, (Some tt). split; [reflexivity|]. auto.
    - destruct (lt_update app g k) as [g1| |] eqn:E1; cbn [mbind res_bind] in E; [|discriminate|discriminate].
      unfold ups. cbn [ufor]. destruct (sim_update size k s g g1 HR) as [Es|(s1 & Es & HR1)]; [lia|lia|exact E1| |].
      + exists s, None. split; [apply ubind_unwound; exact Es|]. split; [discriminate|]. intros HM.
        apply (gups_weak B size s (k :: ks)) with (g := g); [constructor; auto|exact HM|exact HR|]. cbn [gups rfor]. rewrite E1. exact E.
      + destruct (IH s1 g1 g' HR1 E) as (s2 & o & E2 & H1 & H2). exists s2, o. split; [rewrite (ubind_ok _ _ _ _ _ Es); exact E2|].
        split; [exact H1|]. intros HM. apply H2. eapply Mono_update; try eassumption; lia.
  Qed.

  (** ** The loops of updates in that form *)
  Lemma ups_app ks1 ks2 s : ups (ks1 ++ ks2) s = (ups ks1 ;;~ ups ks2) s.
  Proof. unfold ups. rewrite ufor_app. unfold ubind. destruct (ufor ks1 _ tt s) as [[s' [[]|]]| |]; reflexivity. Qed.
  Lemma gups_app ks1 ks2 g : gups (ks1 ++ ks2) g = (g ← gups ks1 g; gups ks2 g).
  Proof. revert g. induction ks1 as [|k ks1 IH]; intros g; [reflexivity|]. cbn [app gups rfor]. destruct (lt_update app g k) as [g1| |]; cbn [mbind res_bind]; [apply IH|reflexivity|reflexivity]. Qed.
  Lemma ups_for {A} (xs : list A) (body : A -> uw (tree S F) unit) (nodes : A -> list nat) :
    (forall x s, x ∈ xs -> body x s = ups (nodes x) s) -> forall s, ufor xs (fun x _ => body x) tt s = ups (flat_map nodes xs) s.
  Proof.
    induction xs as [|x xs IH]; intros H s; [reflexivity|]. cbn [ufor flat_map]. rewrite ups_app. unfold ubind.
    rewrite (H x s) by left. destruct (ups (nodes x) s) as [[s' [[]|]]| |]; cbn [mbind res_bind]; [|reflexivity|reflexivity|reflexivity].
    apply IH. intros y s1 Hy. apply H. right. exact Hy.
  Qed.
  Lemma gups_for {A} (xs : list A) (body : A -> gtree -> res gtree) (nodes : A -> list nat) :
    (forall x g, x ∈ xs -> body x g = gups (nodes x) g) -> forall g, rfor xs body g = gups (flat_map nodes xs) g.
  Proof.
    induction xs as [|x xs IH]; intros H g; [reflexivity|]. cbn [rfor flat_map]. rewrite gups_app.
    rewrite (H x g) by left. destruct (gups (nodes x) g) as [g'| |]; cbn [mbind res_bind]; [|reflexivity|reflexivity].
    apply IH. intros y s1 Hy. apply H. right. exact Hy.
  Qed.

  Lemma ups_one k s : ltu_update opc k s = ups [k] s.
  Proof. unfold ups. cbn [ufor]. unfold ubind. destruct (ltu_update opc k s) as [[s' [[]|]]| |]; reflexivity. Qed.
  Lemma gups_one k g : lt_update app g k = gups [k] g.
  Proof. unfold gups. cbn [rfor]. destruct (lt_update app g k); reflexivity. Qed.

  Definition bnodes (l r i : nat) : list nat :=
    (if straddled l i then [l / 2 ^ i] else []) ++ (if straddled r i then [(r - 1) / 2 ^ i] else []).
  Lemma ups_bounds l r i s : 0 < r -> ltu_update_bounds opc l r i s = ups (bnodes l r i) s.
  Proof.
    intros Hr. unfold ltu_update_bounds, bnodes. rewrite ups_app. rewrite nsub_ok by lia.
    assert (forall s, (if straddled l i then ltu_update opc (l / 2 ^ i) else uret tt) s = ups (if straddled l i then [l / 2 ^ i] else []) s) as H1.
    { intros s1. destruct (straddled l i); [apply ups_one|reflexivity]. }
    assert (forall s, (if straddled r i then q <~ uread (fun _ => Ok (r - 1)) ;~ ltu_update opc (q / 2 ^ i) else uret tt) s = ups (if straddled r i then [(r - 1) / 2 ^ i] else []) s) as H2.
    { intros s1. destruct (straddled r i); [|reflexivity]. rewrite (ubind_ok _ _ s1 s1 (r - 1)) by (apply uread_ok; reflexivity). apply ups_one. }
    unfold ubind at 1. unfold ubind at 2. rewrite H1. destruct (ups _ s) as [[s' [[]|]]| |]; cbn [mbind res_bind]; [|reflexivity|reflexivity|reflexivity]. apply H2.
  Qed.
  Lemma gups_bounds l r i g : 0 < r -> lt_update_bounds app l r i g = gups (bnodes l r i) g.
  Proof.
    intros Hr. unfold lt_update_bounds, bnodes. rewrite gups_app. rewrite nsub_ok by lia.
    assert (forall g, (if straddled l i then lt_update app g (l / 2 ^ i) else Ok g) = gups (if straddled l i then [l / 2 ^ i] else []) g) as H1.
    { intros s1. destruct (straddled l i); [apply gups_one|reflexivity]. }
    rewrite H1. destruct (gups _ g) as [g1| |]; cbn [mbind res_bind]; [|reflexivity|reflexivity].
    destruct (straddled r i); [apply gups_one|reflexivity].
  Qed.

  (** ** prod *)
  Local Notation sp := (some_prod e op).
  Lemma sim_prod_loop size s g fuel : Rel size s g -> forall l r sml smr wl wr wl' wr', 0 < l -> sp wl sml -> sp wr smr ->
    rloop fuel (st_prod_step app g.1) (l, r, wl, wr) = Ok (wl', wr') ->
    rloop fuel (stc_prod_step opc s.1) (l, r, sml, smr) = Panic \/
    exists x y, rloop fuel (stc_prod_step opc s.1) (l, r, sml, smr) = Ok (x, y) /\ sp wl' x /\ sp wr' y.
  Proof.
    intros HR. induction fuel as [|fuel IH]; intros l r sml smr wl wr wl' wr' Hl0 Hl Hr E; [discriminate|]. cbn [rloop] in *.
    set (rg := rloop fuel (st_prod_step app g.1)) in *. set (rs := rloop fuel (stc_prod_step opc s.1)) in *.
    unfold st_prod_step in E. unfold stc_prod_step.
    destruct (Nat.ltb_spec l r) as [Hlt|Hge]; [|cbn in E; injection E as <- <-; right; exists sml, smr; cbn; auto].
    assert (exists l1 wl1, (if Nat.odd l then x ← vget g.1 l; Ok (l + 1, wl ++ x) else Ok (l, wl)) = Ok (l1, wl1) /\ 0 < l1 / 2 /\
      ((if Nat.odd l then x ← vget s.1 l; y ← opc sml x; Ok (l + 1, y) else Ok (l, sml)) = Panic \/
       exists sml1, (if Nat.odd l then x ← vget s.1 l; y ← opc sml x; Ok (l + 1, y) else Ok (l, sml)) = Ok (l1, sml1) /\ sp wl1 sml1))
      as (l1 & wl1 & El & Hl1 & Hsl).
    { destruct (Nat.odd l) eqn:Ho.
      - destruct (vget g.1 l) as [w| |] eqn:Ew; [|cbn in E; discriminate|cbn in E; discriminate].
        exists (l + 1), (wl ++ w). split; [reflexivity|]. split; [apply Nat.div_str_pos; lia|].
        destruct (Rel_read e op size s g l w HR Ew) as (v & Ev & X & Y). rewrite Ev. cbn [mbind res_bind].
        destruct (O sml v) as [-> | ->]; cbn [mbind res_bind]; [right|left; reflexivity].
        eexists. split; [reflexivity|]. apply some_prod_app; [exact L|exact Hl|]. apply (re_rep _ _ _ _ _ HR l v w); assumption.
      - exists l, wl. split; [reflexivity|]. split.
        { assert (l <> 1) by (intros ->; discriminate). apply Nat.div_str_pos; lia. }
        right. exists sml. auto. }
    rewrite El in E. cbn [mbind res_bind] in E.
    destruct Hsl as [-> | (sml1 & -> & Hsl)]; cbn [mbind res_bind]; [left; reflexivity|].
    assert (exists r1 wr1, (if Nat.odd r then r ← nsub r 1; x ← vget g.1 r; Ok (r, x ++ wr) else Ok (r, wr)) = Ok (r1, wr1) /\
      ((if Nat.odd r then r ← nsub r 1; x ← vget s.1 r; y ← opc x smr; Ok (r, y) else Ok (r, smr)) = Panic \/
       exists smr1, (if Nat.odd r then r ← nsub r 1; x ← vget s.1 r; y ← opc x smr; Ok (r, y) else Ok (r, smr)) = Ok (r1, smr1) /\ sp wr1 smr1))
      as (r1 & wr1 & Er & Hsr).
    { destruct (Nat.odd r) eqn:Ho.
      - rewrite nsub_ok in * by lia. cbn [mbind res_bind] in *.
        destruct (vget g.1 (r - 1)) as [w| |] eqn:Ew; [|cbn in E; discriminate|cbn in E; discriminate].
        exists (r - 1), (w ++ wr). split; [reflexivity|].
        destruct (Rel_read e op size s g (r - 1) w HR Ew) as (v & Ev & X & Y). rewrite Ev. cbn [mbind res_bind].
        destruct (O v smr) as [-> | ->]; cbn [mbind res_bind]; [right|left; reflexivity].
        eexists. split; [reflexivity|]. apply some_prod_app; [exact L| |exact Hr]. apply (re_rep _ _ _ _ _ HR (r - 1) v w); try assumption; lia.
      - exists r, wr. split; [reflexivity|]. right. exists smr. auto. }
    rewrite Er in E. cbn [mbind res_bind] in E.
    destruct Hsr as [-> | (smr1 & -> & Hsr)]; cbn [mbind res_bind]; [left; reflexivity|].
    eapply IH; eassumption.
  Qed.

  (** ** The invariant *)
  Definition garr (log : nat) cells (p : nat) : list (list S) := [default [e] (cells !! (p - 2 ^ log))].
  Definition TInv (log : nat) s cells : Prop := exists g C, Rel (2 ^ log) s g /\ GR log g (garr log cells) C.
  Record CInv t cells : Prop := {
    ci_n : lt_n t = length cells;
    ci_size : lt_size t = 2 ^ lt_log t;
    ci_le : lt_n t <= lt_size t;
    ci_T : TInv (lt_log t) (lt_d t, lt_lz t) cells }.

  Lemma CInv_with t cells s cells' : CInv t cells -> length cells' = length cells -> TInv (lt_log t) s cells' -> CInv (with_tree t s) cells'.
  Proof. intros [H1 H2 H3 H4] Hl HT. split; cbn; [congruence|exact H2|exact H3|]. destruct s. exact HT. Qed.
End Proof.
