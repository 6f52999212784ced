From Verif Require Import Prelude UtilModel TreeSpec CompSpec LiftModel LiftProof CompTree CompLift LiftDfsSpec LiftDfsProof Unwind LiftUnwindModel LiftUnwindSpec.

(** ** The same code when nobody catches the panic *)
Lemma strip_enter u p b t : strip (blu_enter u p (b, t)) = (st ← bl_enter u p (b, t); Ok (st, tt)).
Proof.
  unfold blu_enter, bl_enter. rewrite strip_bind. unfold put_tin. rewrite strip_write. destruct (vset (bl_tin b) u t) as [tin| |]; cbn [mbind res_bind]; try reflexivity.
  rewrite strip_bind. unfold tick. rewrite strip_write. cbn [mbind res_bind]. rewrite strip_bind. unfold put_pa. rewrite strip_write. cbn [bl_pa bl_level bl_dep bl_tin bl_tout]. destruct (pa_set (bl_pa b) u 0 p) as [pa| |]; cbn [mbind res_bind]; try reflexivity.
  rewrite strip_bind, strip_read. cbn [mbind res_bind fst bl_level].
  assert (G : forall xs pa, strip (ufor xs (fun i _ => w <~ uread (fun s => pa_get (bl_pa s.1) u (i - 1)) ;~ x <~ uread (fun s => pa_get (bl_pa s.1) w (i - 1)) ;~ put_pa u i x) tt (BL (bl_level b) pa (bl_dep b) tin (bl_tout b), t + 1)) =
    (pa ← rfor xs (fun i pa => w ← pa_get pa u (i - 1); x ← pa_get pa w (i - 1); pa_set pa u i x) pa; Ok ((BL (bl_level b) pa (bl_dep b) tin (bl_tout b), t + 1), tt))).
  { induction xs as [|i xs IH]; intros q; [reflexivity|]. cbn [ufor rfor]. rewrite !strip_bind, strip_read. cbn [fst bl_pa]. destruct (pa_get q u (i - 1)) as [w| |]; cbn [mbind res_bind]; try reflexivity.
    rewrite strip_bind, strip_read. cbn [fst bl_pa]. destruct (pa_get q w (i - 1)) as [x| |]; cbn [mbind res_bind]; try reflexivity. unfold put_pa. rewrite strip_write. cbn [bl_pa bl_level bl_dep bl_tin bl_tout]. destruct (pa_set q u i x) as [q'| |]; cbn [mbind res_bind]; try reflexivity. apply IH. }
  rewrite G. match goal with |- context [rfor ?xs ?f ?s] => destruct (rfor xs f s) end; reflexivity.
Qed.
Lemma strip_dfs fuel g : forall u p b t, strip (blu_dfs fuel g u p (b, t)) = (st ← bl_dfs fuel g u p (b, t); Ok (st, tt)).
Proof.
  induction fuel as [|fuel IH]; intros u p b t; [reflexivity|]. cbn [blu_dfs bl_dfs]. rewrite strip_bind, strip_enter. destruct (bl_enter u p (b, t)) as [[b1 t1]| |]; cbn [mbind res_bind]; try reflexivity.
  rewrite strip_bind, strip_read. destruct (vget g u) as [es| |]; cbn [mbind res_bind]; try reflexivity. rewrite strip_bind.
  assert (G : forall xs b t, strip (ufor xs (fun v _ => if v =? p then uret tt else put_dep u v ;;~ blu_dfs fuel g v u) tt (b, t)) = (st ← rfor xs (bl_edge (bl_dfs fuel g) u p) (b, t); Ok (st, tt))).
  { induction xs as [|v xs IHx]; intros c s; [reflexivity|]. cbn [ufor rfor]. rewrite strip_bind. change (bl_edge (bl_dfs fuel g) u p v (c, s)) with (if v =? p then Ok (c, s) else du ← vget (bl_dep c) u; dep ← vset (bl_dep c) v (du + 1); bl_dfs fuel g v u (BL (bl_level c) (bl_pa c) dep (bl_tin c) (bl_tout c), s)). destruct (v =? p); [cbn [strip uret mbind res_bind]; apply IHx|].
    rewrite strip_bind. change (strip (put_dep u v (c, s))) with (strip (uwrite (fun '(b, t) => du ← vget (bl_dep b) u; dep ← vset (bl_dep b) v (du + 1); Ok (BL (bl_level b) (bl_pa b) dep (bl_tin b) (bl_tout b), t)) (c, s))). rewrite strip_write. destruct (vget (bl_dep c) u) as [du| |]; cbn [mbind res_bind]; try reflexivity. destruct (vset (bl_dep c) v (du + 1)) as [dep| |]; cbn [mbind res_bind]; try reflexivity.
    rewrite IH. destruct (bl_dfs fuel g v u _) as [[c1 s1]| |]; cbn [mbind res_bind]; try reflexivity. apply IHx. }
  rewrite G. destruct (rfor es (bl_edge (bl_dfs fuel g) u p) (b1, t1)) as [[b2 t2]| |]; cbn [mbind res_bind]; try reflexivity. unfold put_tout. rewrite strip_write. destruct (vset (bl_tout b2) u t2); reflexivity.
Qed.

(** ** What a call leaves, returned or unwound *)
Section Keeps.
  Context {X : Type} (R : X -> X -> Prop) (Rr : forall s, R s s) (Rt : forall a b c, R a b -> R b c -> R a c).
  Definition keeps {A} (m : uw X A) : Prop := forall s s' o, m s = Ok (s', o) -> R s s'.
  Lemma keeps_ret {A} (a : A) : keeps (uret a).
  Proof. intros s s' o [= <- <-]. apply Rr. Qed.
  Lemma keeps_read {A} (r : X -> res A) : keeps (uread r).
  Proof. intros s s' o H. unfold uread in H. destruct (r s); try discriminate; injection H as <- _; apply Rr. Qed.
  Lemma keeps_write (w : X -> res X) : (forall s s', w s = Ok s' -> R s s') -> keeps (uwrite w).
  Proof. intros Hw s s' o H. unfold uwrite in H. destruct (w s) eqn:E; try discriminate; injection H as <- _; auto. Qed.
  Lemma keeps_bind {A B} (m : uw X A) (k : A -> uw X B) : keeps m -> (forall a, keeps (k a)) -> keeps (ubind m k).
  Proof. intros Hm Hk s s' o H. unfold ubind in H. destruct (m s) as [[s1 [a|]]| |] eqn:E; cbn [mbind res_bind] in H; try discriminate; [eapply Rt; [exact (Hm _ _ _ E)|exact (Hk _ _ _ _ H)]|]. injection H as <- _. exact (Hm _ _ _ E). Qed.
  Lemma keeps_for {A B} (xs : list A) (body : A -> B -> uw X B) : (forall x b, x ∈ xs -> keeps (body x b)) -> forall b, keeps (ufor xs body b).
  Proof.
    induction xs as [|x xs IH]; intros H b; [apply keeps_ret|]. cbn [ufor]. apply keeps_bind; [apply H; left|]. apply IH. intros y b' Hy. apply H. right. exact Hy.
  Qed.
End Keeps.

(** The shape stays, the timer only grows, and the entries of the vertices outside D stay. *)
Definition only_at (D : nat -> Prop) (s s' : bl * nat) : Prop :=
  s.2 <= s'.2 /\ bl_level s'.1 = bl_level s.1 /\
  length (bl_pa s'.1) = length (bl_pa s.1) /\ length (bl_dep s'.1) = length (bl_dep s.1) /\ length (bl_tin s'.1) = length (bl_tin s.1) /\ length (bl_tout s'.1) = length (bl_tout s.1) /\
  (forall v row', bl_pa s'.1 !! v = Some row' -> exists row, bl_pa s.1 !! v = Some row /\ length row' = length row) /\
  forall v, ~ D v -> bl_pa s'.1 !! v = bl_pa s.1 !! v /\ bl_dep s'.1 !! v = bl_dep s.1 !! v /\ bl_tin s'.1 !! v = bl_tin s.1 !! v /\ bl_tout s'.1 !! v = bl_tout s.1 !! v.
Lemma only_refl D s : only_at D s s.
Proof. unfold only_at. split_and!; eauto. Qed.
Lemma only_trans D a b c : only_at D a b -> only_at D b c -> only_at D a c.
Proof.
  intros (H1 & H2 & H3 & H4 & H5 & H6 & H7 & H8) (K1 & K2 & K3 & K4 & K5 & K6 & K7 & K8). unfold only_at. split_and!; try congruence; [lia| |].
  - intros v row Hv. destruct (K7 v row Hv) as (r1 & Hr1 & E1). destruct (H7 v r1 Hr1) as (r2 & Hr2 & E2). exists r2. split; [exact Hr2|congruence].
  - intros v Hv. destruct (H8 v Hv) as (A1 & A2 & A3 & A4). destruct (K8 v Hv) as (B1 & B2 & B3 & B4). split_and!; congruence.
Qed.
Lemma vset_ne {A} (l l' : list A) i x v : vset l i x = Ok l' -> v <> i -> l' !! v = l !! v.
Proof. unfold vset. case_match; [|discriminate]. intros [= <-] Hv. apply list_lookup_insert_ne. auto. Qed.
Lemma pa_set_ne pa pa' u i x v : pa_set pa u i x = Ok pa' -> v <> u -> pa' !! v = pa !! v.
Proof. unfold pa_set. intros E Hv. apply rbind_ok_inv in E as (row & _ & E). apply rbind_ok_inv in E as (row' & _ & E). exact (vset_ne _ _ _ _ _ E Hv). Qed.
Lemma pa_set_rows pa pa' u i x : pa_set pa u i x = Ok pa' -> length pa' = length pa /\ forall v row', pa' !! v = Some row' -> exists row, pa !! v = Some row /\ length row' = length row.
Proof.
  unfold pa_set. intros E. apply rbind_ok_inv in E as (row & E1 & E). apply rbind_ok_inv in E as (row' & E2 & E). apply vget_ok_iff in E1. apply vset_shape in E2. split; [eapply vset_shape; eauto|].
  intros v r Hv. destruct (decide (v = u)) as [->|Hne]; [|rewrite (vset_ne _ _ _ _ _ E Hne) in Hv; eauto]. unfold vset in E. case_match; [|discriminate]. injection E as <-. rewrite list_lookup_insert in Hv by assumption. injection Hv as <-. eauto.
Qed.
Section Only.
  Context (D : nat -> Prop).
  Local Notation K := (keeps (only_at D)).
  Lemma only_tin u : D u -> K (put_tin u).
  Proof.
    intros Hu. apply keeps_write; [apply only_refl|]. intros [b t] s' H. apply rbind_ok_inv in H as (l & E & H). injection H as <-. unfold only_at. cbn. pose proof (vset_shape _ _ _ _ E). split_and!; eauto.
    intros v Hv. split_and!; try reflexivity. apply (vset_ne _ _ _ _ _ E). congruence.
  Qed.
  Lemma only_tick : K tick.
  Proof. apply keeps_write; [apply only_refl|]. intros [b t] s' H. injection H as <-. unfold only_at. cbn. split_and!; eauto. lia. Qed.
  Lemma only_pa u i x : D u -> K (put_pa u i x).
  Proof.
    intros Hu. apply keeps_write; [apply only_refl|]. intros [b t] s' H. apply rbind_ok_inv in H as (l & E & H). injection H as <-. unfold only_at. cbn. destruct (pa_set_rows _ _ _ _ _ E) as [L Rw]. split_and!; eauto.
    intros v Hv. split_and!; try reflexivity. apply (pa_set_ne _ _ _ _ _ _ E). congruence.
  Qed.
  Lemma only_dep u x : D x -> K (put_dep u x).
  Proof.
    intros Hu. apply keeps_write; [apply only_refl|]. intros [b t] s' H. apply rbind_ok_inv in H as (du & _ & H). apply rbind_ok_inv in H as (l & E & H). injection H as <-. unfold only_at. cbn. pose proof (vset_shape _ _ _ _ E). split_and!; eauto.
    intros v Hv. split_and!; try reflexivity. apply (vset_ne _ _ _ _ _ E). congruence.
  Qed.
  Lemma only_tout u : D u -> K (put_tout u).
  Proof.
    intros Hu. apply keeps_write; [apply only_refl|]. intros [b t] s' H. apply rbind_ok_inv in H as (l & E & H). injection H as <-. unfold only_at. cbn. pose proof (vset_shape _ _ _ _ E). split_and!; eauto.
    intros v Hv. split_and!; try reflexivity. apply (vset_ne _ _ _ _ _ E). congruence.
  Qed.
End Only.
Lemma only_dfs g root fuel : forall u p, reached g root u -> keeps (only_at (reached g root)) (blu_dfs fuel g u p).
Proof.
  pose proof (only_refl (reached g root)) as Rr. pose proof (only_trans (reached g root)) as Rt.
  induction fuel as [|fuel IH]; intros u p Hu; [intros s s' o; discriminate|]. cbn [blu_dfs]. apply keeps_bind; [exact Rt| |].
  - unfold blu_enter. apply keeps_bind; [exact Rt|apply only_tin; exact Hu|intros _]. apply keeps_bind; [exact Rt|apply only_tick|intros _]. apply keeps_bind; [exact Rt|apply only_pa; exact Hu|intros _].
    apply keeps_bind; [exact Rt|apply keeps_read; exact Rr|intros level]. apply keeps_for; [exact Rr|exact Rt|]. intros i [] _. apply keeps_bind; [exact Rt|apply keeps_read; exact Rr|intros w]. apply keeps_bind; [exact Rt|apply keeps_read; exact Rr|intros x]. apply only_pa. exact Hu.
  - intros _ s s' o H. unfold ubind at 1, uread at 1 in H. destruct (vget g u) as [es| |] eqn:Ees; cbn [mbind res_bind] in H; try discriminate; [|injection H as <- _; apply Rr]. apply vget_ok_iff in Ees. revert H. apply keeps_bind; [exact Rt| |intros _; apply only_tout; exact Hu].
    apply keeps_for; [exact Rr|exact Rt|]. intros v [] Hv. assert (Hvr : reached g root v) by (eapply step_reached; [exact Hu|exists es; auto]). destruct (v =? p); [apply keeps_ret; exact Rr|]. apply keeps_bind; [exact Rt|apply only_dep; exact Hvr|intros _]. apply IH. exact Hvr.
Qed.
Lemma left_shape g b : 0 < length g -> (Z.of_nat (length g) < 2 ^ 64)%Z -> bl_left (length g) b -> bwf g (levels (length g)) b.
Proof.
  intros H0 H1 S. remember (length g) as n eqn:En. induction S as [g' root b Hg E|b fuel g' u p t b' t' o S IH E]; rewrite En in *.
  - apply state_shape; [lia|lia|]. econstructor; eauto.
  - destruct (only_dfs g' u fuel u p (root_reached g' u) _ _ _ E) as (_ & L & L1 & L2 & L3 & L4 & Rw & _). cbn [fst] in *. destruct IH as [W1 W2 W3 W4 W5 W6]. split; try congruence. intros v row Hv. destruct (Rw v row Hv) as (r0 & Hr0 & ->). eauto.
Qed.
