From stdpp Require Import relations.
From Verif Require Import Prelude IntModel SccModel SccSpec SccProof SccPanic SccProps SccRoomModel SccRoomProof.

(** A run with a limit that ends is the run without, and never has more than k vertices on the stack or in a component. *)
Definition small (k : nat) (st : tj) : Prop := length (tj_stk st) <= k /\ Forall (fun c => length c <= k) (tj_comp st).
Definition ends (k : nat) (m m' : res tj) : Prop := forall st, m = Ok st -> m' = Ok st /\ small k st.
Lemma ends_bind k m m' f f' : ends k m m' -> (forall st, small k st -> ends k (f st) (f' st)) -> ends k (m ≫= f) (m' ≫= f').
Proof. intros H1 H2 st E. destruct m as [a| |]; cbn in E; [|discriminate|discriminate]. destruct (H1 a eq_refl) as [-> S]. cbn. apply H2; assumption. Qed.
Lemma ends_bind_eq {A} k (m : res A) f f' : (forall a, ends k (f a) (f' a)) -> ends k (m ≫= f) (m ≫= f').
Proof. intros H st E. destruct m as [a| |]; cbn in *; [|discriminate|discriminate]. apply H. exact E. Qed.
Lemma ends_ok k st : small k st -> ends k (Ok st) (Ok st).
Proof. intros S st' E. injection E as <-. auto. Qed.
Lemma ends_for {X} k (xs : list X) f f' : (forall x st, small k st -> ends k (f x st) (f' x st)) -> forall st, small k st -> ends k (rfor xs f st) (rfor xs f' st).
Proof. intros H. induction xs as [|x xs IH]; intros st S; cbn [rfor]; [apply ends_ok; exact S|]. apply ends_bind; [apply H; exact S|exact IH]. Qed.
Lemma pop_few u : forall stk ons comp stk' ons' comp', pop_comp u stk ons comp = Ok (stk', ons', comp') -> length stk' <= length stk /\ length comp' <= length comp + length stk.
Proof.
  induction stk as [|v stk IH]; intros ons comp stk' ons' comp' E; cbn [pop_comp] in E; [discriminate|]. destruct (vset ons v false) as [o| |]; cbn [mbind res_bind] in E; [|discriminate|discriminate].
  destruct (u =? v); [injection E as <- <- <-; rewrite app_length; cbn; lia|]. apply IH in E. rewrite app_length in E. cbn in *. lia.
Qed.
Lemma tdfs_ends k g fuel : forall u st, small k st -> ends k (tdfs_room k fuel g u st) (tdfs fuel g u st).
Proof.
  induction fuel as [|fuel IH]; intros u st S; cbn [tdfs_room tdfs]; [intros st' E; discriminate|]. apply ends_bind.
  - unfold tj_enter_room, tj_enter. apply ends_bind_eq. intros ord. apply ends_bind_eq. intros low. apply ends_bind_eq. intros pos. destruct (Nat.ltb_spec (length (tj_stk st)) k) as [L|L]; cbn [rassert mbind res_bind]; [|intros st' E; discriminate].
    apply ends_bind_eq. intros ons. apply ends_ok. destruct S as [_ S]. split; [cbn; lia|exact S].
  - clear st S. intros st S. apply ends_bind_eq. intros es. apply ends_bind.
    + apply ends_for; [|exact S]. clear st S. intros v st S. unfold edge_body. apply ends_bind_eq. intros o. apply ends_bind; [destruct (o =? -1)%Z; [apply IH; exact S|apply ends_ok; exact S]|].
      clear st S. intros st S. apply ends_bind_eq. intros b. destruct b; [|apply ends_ok; exact S]. apply ends_bind_eq. intros lu. apply ends_bind_eq. intros lv. apply ends_bind_eq. intros low. apply ends_ok. exact S.
    + clear st S. intros st S. unfold tj_leave. apply ends_bind_eq. intros lu. apply ends_bind_eq. intros ou. destruct (lu =? ou)%Z; [|apply ends_ok; exact S].
      destruct (pop_comp u (tj_stk st) (tj_ons st) []) as [[[stk ons] comp]| |] eqn:E; cbn [mbind res_bind]; [|intros st' E'; discriminate|intros st' E'; discriminate]. apply pop_few in E as [L1 L2]. cbn in L2.
      destruct S as [S1 S2]. apply ends_ok. split; [cbn; lia|]. cbn [tj_comp]. apply Forall_app. split; [exact S2|]. apply Forall_singleton. lia.
Qed.
Lemma visits_ends k g n : ends k
  (rfor (range 0 n) (fun i st => o ← vget (tj_ord st) i; if (o =? -1)%Z then tdfs_room k (S n) g i st else Ok st) (tj_new n))
  (rfor (range 0 n) (fun i st => o ← vget (tj_ord st) i; if (o =? -1)%Z then tdfs (S n) g i st else Ok st) (tj_new n)).
Proof.
  apply ends_for; [|split; [cbn; lia|constructor]]. intros i st S. apply ends_bind_eq. intros o. destruct (o =? -1)%Z; [apply tdfs_ends; exact S|apply ends_ok; exact S].
Qed.
Lemma need k g r : scc_room k g = Ok r -> scc g = Ok r /\ forall l, NoDup l -> (forall u, u ∈ l -> u < length g) -> (forall u v, u ∈ l -> v ∈ l -> reach g u v) -> length l <= k.
Proof.
  intros E. assert (exists st, rfor (range 0 (length g)) (fun i st => o ← vget (tj_ord st) i; if (o =? -1)%Z then tdfs (S (length g)) g i st else Ok st) (tj_new (length g)) = Ok st /\ small k st /\ scc g = Ok r) as (st & E1 & [_ S] & E2).
  { unfold scc_room in E. destruct (rfor (range 0 (length g)) _ _) as [st| |] eqn:E1 in E; cbn [mbind res_bind] in E; [|discriminate|discriminate]. destruct (visits_ends k g (length g) st E1) as [E2 S]. exists st. split; [exact E2|]. split; [exact S|].
    unfold scc. rewrite E2. cbn [mbind res_bind]. exact E. }
  split; [exact E2|]. intros l Hnd Hlt Hr. destruct l as [|u0 l0] eqn:El; [cbn; lia|]. rewrite <- El in *. clear E.
  assert (~ ((exists u v, edge g u v /\ length g <= v) \/ (2 ^ 31 <= Z.of_nat (length g))%Z)) as NP by (intros H; apply (proj2 (C25_panics g)) in H; congruence).
  assert (forall u v, edge g u v -> v < length g) as Hg by (intros u v He; destruct (decide (v < length g)) as [|Hge]; [assumption|]; exfalso; apply NP; left; exists u, v; split; [exact He|lia]).
  destruct (scc_visit_ok g (length g) eq_refl ltac:(lia) Hg) as (st' & E' & Hinv & Hvis). rewrite E1 in E'. injection E' as <-.
  assert (forall u, u < length g -> exists i, in_comp st i u) as Hin.
  { intros u Hu. destruct (ti_done _ _ _ _ Hinv u (Hvis u Hu)) as [Hs|H]; [|exact H]. rewrite (idle_stack_empty g (length g) eq_refl st Hinv) in Hs. apply elem_of_nil in Hs. destruct Hs. }
  assert (forall u v a b, reach g u v -> in_comp st a u -> in_comp st b v -> (b <= a)%nat) as Hmono.
  { intros u v a b Hr'. revert a. induction Hr' as [u|u w v Huw _ IH]; intros a Ha Hb.
    - rewrite (ti_uniq _ _ _ _ Hinv a b u Ha Hb). lia.
    - destruct (ti_top _ _ _ _ Hinv a u w Ha Huw) as (j & Hj & Hw). specialize (IH j Hw Hb). lia. }
  assert (u0 ∈ l) as H0 by (rewrite El; left). destruct (Hin u0 (Hlt u0 H0)) as (i & c & Hc & Hc0).
  assert (length l <= length c) as L; [|rewrite Forall_forall in S; specialize (S c (elem_of_list_lookup_2 _ _ _ Hc)); lia].
  apply submseteq_length, NoDup_submseteq; [exact Hnd|]. intros v Hv. destruct (Hin v (Hlt v Hv)) as (j & Hj). assert (in_comp st i u0) as Hi by (exists c; auto).
  pose proof (Hmono u0 v i j (Hr u0 v H0 Hv) Hi Hj). pose proof (Hmono v u0 j i (Hr v u0 Hv H0) Hj Hi). assert (j = i) as -> by lia. destruct Hj as (c' & Hc' & Hvc). rewrite Hc in Hc'. injection Hc' as <-. exact Hvc.
Qed.
