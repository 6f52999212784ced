(** Dinic: an edge of negative capacity behaves like one of capacity 0. *)
From Verif Require Import Prelude IntModel ArraySpec DinicModel DinicProof.
Open Scope Z_scope.

(** Both return, with related results, or both panic, or both do not return. *)
Definition rr {A B} (R : A -> B -> Prop) (x : res A) (y : res B) : Prop :=
  match x, y with Ok a, Ok b => R a b | Panic, Panic | Diverge, Diverge => True | _, _ => False end.
Lemma rr_bind {A B C D} (R : A -> B -> Prop) (Q : C -> D -> Prop) x y f g :
  rr R x y -> (forall a b, R a b -> rr Q (f a) (g b)) -> rr Q (a ← x; f a) (b ← y; g b).
Proof. destruct x, y; cbn; auto; contradiction. Qed.
Lemma rr_same {A C D} (Q : C -> D -> Prop) (x : res A) f g : (forall a, x = Ok a -> rr Q (f a) (g a)) -> rr Q (a ← x; f a) (b ← x; g b).
Proof. destruct x; cbn; auto. Qed.
Lemma rr_rloop {S S' R R'} (I : S -> S' -> Prop) (Q : R -> R' -> Prop) f g fuel s s' :
  (forall s s', I s s' -> rr (fun a b => match a, b with inl a, inl b => I a b | inr a, inr b => Q a b | _, _ => False end) (f s) (g s')) ->
  I s s' -> rr Q (rloop fuel f s) (rloop fuel g s').
Proof.
  intros H. revert s s'. induction fuel as [|fuel IH]; intros s s' Hi; cbn [rloop]; [exact Logic.I|].
  eapply rr_bind; [apply H; exact Hi|]. intros [a|a] [b|b] Hab; try contradiction; [apply IH; exact Hab|exact Hab].
Qed.

(** Pairs of edges: dead ones (negative capacity in e, 0 in e'), the others identical. *)
Definition erel (D : nat -> bool) (e e' : list dedge) : Prop :=
  length e = length e' /\ forall j, if D (Nat.div2 j) then forall x, e !! j = Some x -> x.2 <= 0 /\ e' !! j = Some (x.1, 0) else e !! j = e' !! j.

Lemma div2_lxor1 j : Nat.div2 (Nat.lxor j 1) = Nat.div2 j.
Proof. apply Nat.bits_inj. intros k. rewrite !Nat.div2_div, !Nat.div2_bits, Nat.lxor_spec by lia.
  assert (Nat.testbit 1 (S k) = false) as -> by (apply Nat.bits_above_log2; cbn; lia). apply xorb_false_r.
Qed.

Lemma erel_get D e e' j : erel D e e' -> rr (fun x y => x.1 = y.1 /\ ((D (Nat.div2 j) = true /\ x.2 <= 0 /\ y.2 = 0) \/ (D (Nat.div2 j) = false /\ x = y))) (vget e j) (vget e' j).
Proof.
  intros [L H]. specialize (H j). unfold vget. destruct (D (Nat.div2 j)) eqn:ED.
  - destruct (e !! j) as [x|] eqn:E.
    + destruct (H x eq_refl) as [Hx ->]. cbn. auto.
    + assert (e' !! j = None) as -> by (apply lookup_ge_None; apply lookup_ge_None in E; lia). exact I.
  - rewrite H. destruct (e' !! j); cbn; auto.
Qed.
Lemma erel_set D e e' j x : erel D e e' -> D (Nat.div2 j) = false -> rr (erel D) (vset e j x) (vset e' j x).
Proof.
  intros [L H] Hj. destruct (decide (j < length e)%nat) as [Hl|Hl].
  - rewrite !vset_ok by lia. cbn. split; [rewrite !insert_length; exact L|]. intros k. specialize (H k). destruct (decide (k = j)) as [->|Hne].
    + rewrite Hj. rewrite !list_lookup_insert by lia. reflexivity.
    + rewrite !list_lookup_insert_ne by done. exact H.
  - rewrite !vset_panic by lia. exact I.
Qed.
Lemma erel_live D e e' j x : erel D e e' -> D (Nat.div2 j) = false -> vget e j = Ok x -> vget e' j = Ok x.
Proof. intros [L H] Hj E. specialize (H j). rewrite Hj in H. unfold vget in *. rewrite <- H. exact E. Qed.

Lemma bfs_scan_neg D e e' u t es : erel D e e' -> forall h q, bfs_scan e u t es h q = bfs_scan e' u t es h q.
Proof.
  intros HR. induction es as [|i es IH]; intros h q; [reflexivity|]. cbn [bfs_scan].
  pose proof (erel_get D e e' i HR) as G. destruct (vget e i) as [[v c]| |], (vget e' i) as [[v' c']| |]; try contradiction; try reflexivity.
  cbn [rr fst snd] in G. destruct G as [-> G]. cbn [mbind res_bind].
  assert ((0 <? c) = (0 <? c')) as ->.
  { destruct G as [(_ & H1 & ->)|[_ [= ->]]]; [|reflexivity]. destruct (Z.ltb_spec 0 c); [lia|reflexivity]. }
  destruct (0 <? c'); [|apply IH]. destruct (vget h v') as [hv| |]; [|reflexivity..]. cbn [mbind res_bind]. destruct (hv =? -1); [|apply IH].
  destruct (vget h u) as [hu| |]; [|reflexivity..]. cbn [mbind res_bind]. destruct (iadd i32 hu 1) as [d| |]; [|reflexivity..]. cbn [mbind res_bind].
  destruct (vset h v' d) as [h'| |]; [|reflexivity..]. cbn [mbind res_bind]. destruct (v' =? t)%nat; [reflexivity|apply IH].
Qed.
Lemma rloop_same {S R} (f g : S -> res (S + R)) fuel s : (forall s, f s = g s) -> rloop fuel f s = rloop fuel g s.
Proof. intros H. revert s. induction fuel as [|fuel IH]; intros s; cbn [rloop]; [reflexivity|]. rewrite H. destruct (g s) as [[s'|r]| |]; cbn; auto. Qed.
Lemma bfs_neg D e e' g h s t : erel D e e' -> bfs e g h s t = bfs e' g h s t.
Proof.
  intros HR. unfold bfs. destruct (vset _ s 0) as [h'| |]; [|reflexivity..]. cbn [mbind res_bind]. apply rloop_same. intros [h1 q]. unfold bfs_step.
  destruct q as [|u q]; [reflexivity|]. destruct (vget g u) as [es| |]; [|reflexivity..]. cbn [mbind res_bind]. rewrite (bfs_scan_neg D e e') by exact HR. reflexivity.
Qed.

Definition dres (D : nat -> bool) (x y : Z * (list dedge * list nat)) : Prop := x.1 = y.1 /\ erel D x.2.1 y.2.1 /\ x.2.2 = y.2.2.

Lemma dfs_neg T D g h t : forall fuel u f e e' cur, erel D e e' -> rr (dres D) (fdfs fuel T g h t u f e cur) (fdfs fuel T g h t u f e' cur).
Proof.
  induction fuel as [|fuel IH]; intros u f e e' cur HR; cbn [fdfs]; [exact I|].
  destruct (u =? t)%nat; [cbn; split; auto|]. apply rr_same. intros i _. apply rr_same. intros js _.
  eapply (rr_bind (dres D)).
  2: { intros [r [e1 cur1]] [r' [e1' cur1']] (H1 & H2 & H3). cbn [fst snd] in *. subst r' cur1'. apply rr_same. intros a _. cbn. split; auto. }
  apply (rr_rloop (fun s s' => exists r i e e' cur, s = (r, i, e, cur) /\ s' = (r, i, e', cur) /\ erel D e e')); [|exists f, i, e, e', cur; auto].
  clear - IH. intros s s' (r & i & e & e' & cur & -> & -> & HR). unfold dfs_step. apply rr_same. intros js _.
  destruct (i <? length js)%nat; [|cbn; split; auto]. apply rr_same. intros j _.
  eapply rr_bind; [apply (erel_get D e e' j HR)|]. cbn beta. intros [v c] [v' c'] [Hv G]. cbn [fst snd] in *. subst v'.
  assert (skip : rr (fun a b => match a, b with
      | inl a, inl b => exists r i e e' cur, a = (r, i, e, cur) /\ b = (r, i, e', cur) /\ erel D e e' | inr a, inr b => dres D a b | _, _ => False end)
      (cur0 ← vset cur u (i + 1)%nat; Ok (inl (r, (i + 1)%nat, e, cur0))) (cur0 ← vset cur u (i + 1)%nat; Ok (inl (r, (i + 1)%nat, e', cur0)))).
  { apply rr_same. intros cur1 _. cbn. eexists _, _, _, _, _. split; [reflexivity|]. split; [reflexivity|exact HR]. }
  destruct G as [(HD & Hc & ->)|[HD [= ->]]].
  { destruct (Z.ltb_spec 0 c) as [|_]; [lia|]. destruct (Z.ltb_spec 0 0) as [|_]; [lia|]. cbn [mbind res_bind]. exact skip. }
  apply rr_same. intros b _. destruct b; [|exact skip]. clear skip.
  eapply rr_bind; [apply IH; exact HR|]. intros [a [e1 cur1]] [a' [e1' cur1']] (H1 & H2 & H3). cbn [fst snd] in H1, H2, H3. subst a' cur1'.
  eapply rr_bind; [apply (erel_get D e1 e1' j H2)|]. cbn beta. intros x x' [_ [[Hx _]|[_ <-]]]; [congruence|].
  apply rr_same. intros c1 _. eapply rr_bind; [apply erel_set; [exact H2|exact HD]|]. intros e2 e2' HR2.
  eapply rr_bind; [apply (erel_get D e2 e2' (Nat.lxor j 1) HR2)|]. cbn beta. rewrite div2_lxor1. intros y y' [_ [[Hx _]|[_ <-]]]; [congruence|].
  apply rr_same. intros c2 _. eapply rr_bind; [apply erel_set; [exact HR2|rewrite div2_lxor1; exact HD]|]. intros e3 e3' HR3.
  apply rr_same. intros r' _. destruct (r' =? 0); [cbn; split; auto|]. apply rr_same. intros cur2 _. cbn. eexists _, _, _, _, _.
  split; [reflexivity|]. split; [reflexivity|exact HR3].
Qed.

(** The structures: everything but the capacities of dead pairs is the same, and edges come in pairs. *)
Definition drel (d d' : dinic) : Prop :=
  dn_n d = dn_n d' /\ dn_g d = dn_g d' /\ dn_cur d = dn_cur d' /\ dn_h d = dn_h d' /\
  exists D, erel D (dn_e d) (dn_e d') /\ exists k, length (dn_e d) = (2 * k)%nat.

Lemma vset_len {A} (l : list A) i x l' : vset l i x = Ok l' -> length l' = length l.
Proof.
  destruct (decide (i < length l)%nat); [rewrite vset_ok by assumption; intros [= <-]; apply insert_length|rewrite vset_panic by lia; discriminate].
Qed.
Lemma dfs_len T g h t : forall fuel u f e cur a e1 cur1, fdfs fuel T g h t u f e cur = Ok (a, (e1, cur1)) -> length e1 = length e.
Proof.
  induction fuel as [|fuel IH]; intros u f e cur a e1 cur1; cbn [fdfs]; [discriminate|].
  destruct (u =? t)%nat; [intros [= <- <- <-]; reflexivity|]. intros E.
  apply rbind_ok_inv in E as (i & _ & E). apply rbind_ok_inv in E as (js & _ & E). apply rbind_ok_inv in E as ([r [e2 cur2]] & El & E).
  apply rbind_ok_inv in E as (b & _ & [= <- <- <-]). revert El. generalize (S (length js)) as fu. intros fu.
  enough (forall fu r0 i0 e0 cur0, rloop fu (dfs_step T (fdfs fuel T g h t) g h u) (r0, i0, e0, cur0) = Ok (r, (e2, cur2)) -> length e2 = length e0) as H by (apply H).
  clear - IH. induction fu as [|fu IHf]; intros r0 i0 e0 cur0; cbn [rloop]; [discriminate|]. intros E.
  apply rbind_ok_inv in E as (o & Es & E). unfold dfs_step in Es. apply rbind_ok_inv in Es as (js & _ & Es).
  destruct (i0 <? length js)%nat; [|injection Es as <-; injection E as <- <- <-; reflexivity].
  apply rbind_ok_inv in Es as (j & _ & Es). apply rbind_ok_inv in Es as ([v c] & _ & Es). apply rbind_ok_inv in Es as (b & _ & Es). destruct b.
  - apply rbind_ok_inv in Es as ([a [e3 cur3]] & Er & Es). apply IH in Er. apply rbind_ok_inv in Es as (ej & _ & Es). apply rbind_ok_inv in Es as (c1 & _ & Es).
    apply rbind_ok_inv in Es as (e4 & E4 & Es). apply rbind_ok_inv in Es as (ek & _ & Es). apply rbind_ok_inv in Es as (c2 & _ & Es).
    apply rbind_ok_inv in Es as (e5 & E5 & Es). apply rbind_ok_inv in Es as (r1 & _ & Es).
    assert (length e5 = length e0) as L5.
    { apply vset_len in E4, E5. congruence. }
    destruct (r1 =? 0); [injection Es as <-; injection E as <- <- <-; exact L5|].
    apply rbind_ok_inv in Es as (cur4 & _ & [= <-]). rewrite <- L5. eapply IHf. exact E.
  - apply rbind_ok_inv in Es as (cur4 & _ & [= <-]). eapply IHf. exact E.
Qed.

Lemma flow_neg T d d' s t : drel d d' -> rr (fun x y => drel x.1 y.1 /\ x.2 = y.2) (dn_max_flow T d s t) (dn_max_flow T d' s t).
Proof.
  intros HR. pose proof HR as (En & _). unfold dn_max_flow. rewrite <- En.
  apply rr_same. intros _ _. apply rr_same. intros _ _.
  eapply (rr_bind (fun x y => x.1 = y.1 /\ drel x.2 y.2)); [|intros [a x] [a' x'] [H1 H2]; cbn in *; auto].
  apply (rr_rloop (fun x y => x.1 = y.1 /\ drel x.2 y.2)); [|cbn; auto]. clear.
  intros [ans d] [ans' d'] [Ha (E1 & E2 & E3 & E4 & D & HR & k & Hk)]. cbn [fst snd] in Ha. subst ans'. destruct d as [n e g cur h], d' as [n' e' g' cur' h'].
  cbn [fst snd dn_n dn_e dn_g dn_cur dn_h] in *. subst n' g' cur' h'. unfold flow_step. cbn [dn_n dn_e dn_g dn_cur dn_h]. rewrite <- (bfs_neg D e e') by exact HR.
  apply rr_same. intros [b h1] _. destruct b.
  - pose proof (dfs_neg T D g h1 t (S (S (length g))) s (it_max T) e e' (replicate (length cur) 0%nat) HR) as H.
    destruct (fdfs _ T g h1 t s (it_max T) e _) as [[a [e1 cur1]]| |] eqn:Ef, (fdfs _ T g h1 t s (it_max T) e' _) as [[a' [e1' cur1']]| |]; try contradiction; try exact I.
    destruct H as (H1 & H2 & H3). cbn [fst snd] in *. subst a' cur1'. cbn [mbind res_bind]. apply rr_same. intros ans1 _. cbn. split; [reflexivity|].
    repeat split. exists D. split; [exact H2|]. exists k. cbn [dn_e]. rewrite <- Hk. eapply dfs_len. exact Ef.
  - cbn. split; [reflexivity|]. repeat split. exists D. split; [exact HR|]. exists k. exact Hk.
Qed.

Lemma edge_neg d d' u v c : drel d d' -> rr drel (dn_add_edge d u v c) (dn_add_edge d' u v (Z.max 0 c)).
Proof.
  intros (E1 & E2 & E3 & E4 & D & [HL HR] & k & Hk). unfold dn_add_edge. rewrite <- E2, <- HL. apply rr_same. intros gu _. apply rr_same. intros g1 _.
  rewrite !app_length, <- HL. cbn [length]. apply rr_same. intros gv _. apply rr_same. intros g2 _. cbn [rr]. unfold drel. cbn [dn_n dn_e dn_g dn_cur dn_h]. repeat split; try assumption.
  exists (fun i => if (i =? k)%nat then (c <? 0) else D i). split; [|exists (S k); rewrite !app_length; cbn; lia].
  split; [rewrite !app_length; cbn; lia|]. intros j. rewrite <- !app_assoc. cbn [app].
  destruct (decide (j < length (dn_e d))%nat) as [Hj|Hj].
  - assert (Nat.div2 j <> k) as Hne. { pose proof (Nat.div2_odd j). rewrite Hk in Hj. lia. }
    apply Nat.eqb_neq in Hne. rewrite Hne. specialize (HR j). rewrite !lookup_app_l by lia. exact HR.
  - rewrite !lookup_app_r by lia. rewrite <- HL. destruct (decide (j < 2 * k + 2)%nat) as [Hj2|Hj2].
    + assert (Nat.div2 j = k) as ->. { pose proof (Nat.div2_odd j). destruct (Nat.odd j); cbn in *; lia. } rewrite Nat.eqb_refl.
      destruct (Z.ltb_spec c 0) as [Hc|Hc].
      * rewrite Z.max_l by lia. intros x Hx. destruct (j - length (dn_e d))%nat as [|[|i]] eqn:Ej; cbn in Hx |- *; [injection Hx as <-; cbn; split; [lia|reflexivity]..|].
        destruct i; discriminate.
      * rewrite Z.max_r by lia. reflexivity.
    + assert (forall (l : list dedge), length l = 2%nat -> l !! (j - length (dn_e d))%nat = None) as HN by (intros l Hl; apply lookup_ge_None; lia).
      rewrite !HN by reflexivity. destruct (if (_ =? _)%nat then _ else _); [discriminate|reflexivity].
Qed.

(** The history with negative capacities replaced by 0. *)
Definition clip (o : dn_op) : dn_op := match o with DnEdge u v c => DnEdge u v (Z.max 0 c) | DnFlow s t => DnFlow s t end.

Lemma run_neg T ops : forall d d', drel d d' -> rr (fun x y => x.2 = y.2) (run (dn_step T) d ops) (run (dn_step T) d' (map clip ops)).
Proof.
  induction ops as [|o ops IH]; intros d d' HR; cbn [run map]; [reflexivity|].
  eapply (rr_bind (fun x y => drel x.1 y.1 /\ x.2 = y.2)).
  - destruct o as [u v c|s t]; cbn [dn_step clip].
    + eapply rr_bind; [apply edge_neg; exact HR|]. intros a b H. cbn. auto.
    + eapply rr_bind; [apply flow_neg; exact HR|]. intros a b [H1 H2]. cbn. split; [exact H1|congruence].
  - intros [d1 o1] [d1' o1'] [H1 H2]. cbn [fst snd] in *. subst o1'. eapply rr_bind; [apply IH; exact H1|]. intros [d2 os] [d2' os'] H. cbn in *. congruence.
Qed.
Lemma new_rel n : drel (dn_new n) (dn_new n).
Proof.
  repeat split. exists (fun _ => false). split; [split; reflexivity|]. exists 0%nat. reflexivity.
Qed.
Close Scope Z_scope.
