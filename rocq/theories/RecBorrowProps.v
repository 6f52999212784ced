(** RecursiveFunction: the exclusive references to the closure (C99). *)
From Verif Require Import Prelude RecModel RecProps RecBorrowSpec RecBorrowModel.

Section spec.
  Context {A O St : Type} (f : A -> St -> code A O St).
  (** The body c makes the recursive call (a, s) while it runs. *)
  Inductive makes : code A O St -> A -> St -> Prop :=
  | makes_first a s k : makes (Rec a s k) a s
  | makes_later a s k o s' a2 s2 : calls f a s (Ok (o, s')) -> makes (k o s') a2 s2 -> makes (Rec a s k) a2 s2.
  (** The call (a, s) makes a call that makes a call ... : d calls inside each other, counting the first. *)
  Inductive nested : A -> St -> nat -> Prop :=
  | nested_one a s : nested a s 1
  | nested_in a s a' s' d : makes (f a s) a' s' -> nested a' s' d -> nested a s (S d).
End spec.

(** Logs in which every reference made goes out of use again, in order. *)
Inductive balanced : list bevent -> Prop :=
| bal_nil : balanced []
| bal_app l l' : balanced l -> balanced l' -> balanced (Taken :: l ++ Dropped :: l').
Lemma in_use_from_app n l l' : in_use_from n (l ++ l') = in_use_from (in_use_from n l) l'.
Proof. revert n. induction l as [|[|] l IH]; intros n; cbn [app in_use_from]; auto. Qed.
Lemma balanced_in_use l : balanced l -> forall n, in_use_from n l = n.
Proof.
  induction 1 as [|l l' _ IH _ IH']; intros n; [reflexivity|]. cbn [in_use_from]. rewrite in_use_from_app, IH. cbn [in_use_from]. replace (S n - 1) with n by lia. apply IH'.
Qed.
Lemma balanced_app l l' : balanced l -> balanced l' -> balanced (l ++ l').
Proof.
  intros H H'. induction H as [|l1 l2 H1 _ _ IH2]; [exact H'|]. cbn [app]. rewrite <- app_assoc. cbn [app]. constructor; assumption.
Qed.
Lemma balanced_prefix l : balanced l -> forall now later, l = now ++ later -> forall n, in_use_from n now = n + in_use now.
Proof.
  induction 1 as [|l l' H IH H' IH']; intros now later E n.
  - destruct now; [cbn; unfold in_use; cbn; lia|discriminate].
  - unfold in_use. destruct now as [|e now]; [cbn; lia|]. cbn [app] in E. injection E as <- E. cbn [in_use_from].
    destruct (decide (length now <= length l)) as [Hle|Hgt].
    + assert (exists z, l = now ++ z) as [z Ez]. { exists (drop (length now) l). pose proof (f_equal (take (length now)) E) as Et. rewrite take_app in Et. rewrite take_app_le in Et by lia. rewrite <- Et at 1. rewrite take_drop. reflexivity. }
      rewrite (IH now z Ez (S n)), (IH now z Ez 1). lia.
    + assert (exists z, now = l ++ Dropped :: z) as [z Ez].
      { pose proof (f_equal (take (length now)) E) as Et. rewrite take_app in Et. rewrite take_app_ge in Et by lia. destruct (length now - length l) as [|m] eqn:Em; [lia|]. cbn [take] in Et. eauto. }
      subst now. rewrite <- app_assoc in E. apply app_inv_head in E. cbn [app] in E. injection E as E.
      rewrite !in_use_from_app, !(balanced_in_use l H). cbn [in_use_from]. replace (S n - 1) with n by lia. rewrite (IH' z later E n). reflexivity.
Qed.
Lemma at_once_le d d' log : d <= d' -> at_once d' log -> at_once d log.
Proof. intros H (now & later & E & Hd). exists now, later. split; [exact E|lia]. Qed.
Lemma at_once_nil d : at_once d [] <-> d = 0.
Proof.
  split; [intros (now & later & E & H)|intros ->; exists [], []; split; [reflexivity|cbn; lia]]. symmetry in E. apply app_eq_nil in E as [-> _]. cbn in H. lia.
Qed.
Lemma at_once_app d l l' : balanced l -> (at_once d (l ++ l') <-> at_once d l \/ at_once d l').
Proof.
  intros Hb. split.
  - intros (now & later & E & H). destruct (decide (length now <= length l)) as [Hle|Hgt].
    + left. exists now, (drop (length now) l). split; [|exact H]. pose proof (f_equal (take (length now)) E) as Et. rewrite take_app in Et. rewrite take_app_le in Et by lia. rewrite <- Et at 1. rewrite take_drop. reflexivity.
    + right. assert (exists z, now = l ++ z) as [z ->]. { pose proof (f_equal (take (length now)) E) as Et. rewrite take_app in Et. rewrite take_app_ge in Et by lia. eauto. }
      rewrite <- app_assoc in E. apply app_inv_head in E. exists z, later. split; [exact E|]. unfold in_use in *. rewrite in_use_from_app, (balanced_in_use l Hb) in H. exact H.
  - intros [(now & later & -> & H)|(now & later & -> & H)].
    + exists now, (later ++ l'). split; [rewrite app_assoc; reflexivity|exact H].
    + exists (l ++ now), later. split; [rewrite app_assoc; reflexivity|]. unfold in_use in *. rewrite in_use_from_app, (balanced_in_use l Hb). exact H.
Qed.
Lemma at_once_wrap d l : balanced l -> (at_once (S d) (Taken :: l ++ [Dropped]) <-> at_once d l).
Proof.
  intros Hb. split.
  - intros (now & later & E & H). destruct now as [|e now]; [cbn in H; lia|]. cbn [app] in E. injection E as <- E. unfold in_use in H. cbn [in_use_from] in H.
    destruct (decide (length now <= length l)) as [Hle|Hgt].
    + assert (l = now ++ drop (length now) l) as El. { pose proof (f_equal (take (length now)) E) as Et. rewrite take_app in Et. rewrite take_app_le in Et by lia. rewrite <- Et at 1. rewrite take_drop. reflexivity. }
      exists now, (drop (length now) l). split; [exact El|]. rewrite (balanced_prefix l Hb now _ El 1) in H. lia.
    + assert (now = l ++ [Dropped]) as ->. { pose proof (f_equal (take (length now)) E) as Et. rewrite take_app in Et. rewrite take_app_ge in Et by lia. destruct (length now - length l) as [|m] eqn:Em; [lia|]. cbn [take] in Et. rewrite take_nil in Et. auto. }
      rewrite in_use_from_app, (balanced_in_use l Hb) in H. cbn in H. lia.
  - intros (now & later & -> & H). exists (Taken :: now), (later ++ [Dropped]). split; [cbn [app]; rewrite app_assoc; reflexivity|]. unfold in_use. cbn [in_use_from].
    rewrite (balanced_prefix (now ++ later) Hb now later eq_refl 1). lia.
Qed.

Section proof.
  Context {A O St : Type} (f : A -> St -> code A O St).

  Lemma exec_log_same rl r : (forall a s, (rl a s).1 = r a s) -> forall c : code A O St, (exec_log rl c).1 = exec r c.
  Proof.
    intros H. induction c as [x|a s k IH]; cbn [exec_log exec]; [reflexivity|]. specialize (H a s). destruct (rl a s) as [x l]. cbn [fst] in H. rewrite <- H. destruct x as [[o s']| |]; cbn [mbind res_bind]; [|reflexivity|reflexivity].
    specialize (IH o s'). destruct (exec_log rl (k o s')). exact IH.
  Qed.
  Lemma call_log_same n : forall a s, (call_log f n a s).1 = call f n a s.
  Proof.
    induction n as [|n IH]; intros a s; [reflexivity|]. cbn [call_log call]. pose proof (exec_log_same (call_log f n) (call f n) IH (f a s)) as H. destruct (exec_log (call_log f n) (f a s)). exact H.
  Qed.
  (** What the log of a call that ends looks like. *)
  Definition log_ok (a : A) (s : St) (l : list bevent) : Prop := balanced l /\ forall d, at_once d l <-> d = 0 \/ nested f a s d.
  Lemma exec_log_ok n : (forall a s r l, call_log f n a s = (r, l) -> r <> Diverge -> log_ok a s l) ->
    forall c r l, exec_log (call_log f n) c = (r, l) -> r <> Diverge -> balanced l /\ forall d, at_once d l <-> d = 0 \/ exists a s, makes f c a s /\ nested f a s d.
  Proof.
    intros H. induction c as [x|a s k IH]; intros r l E Hr; cbn [exec_log] in E.
    - injection E as <- <-. split; [constructor|]. intros d. rewrite at_once_nil. split; [auto|]. intros [?|(a & s & Hm & _)]; [assumption|inversion Hm].
    - destruct (call_log f n a s) as [x l1] eqn:E1. pose proof (call_log_same n a s) as Hs. rewrite E1 in Hs. cbn [fst] in Hs. destruct x as [[o s']| |].
      + destruct (exec_log (call_log f n) (k o s')) as [r2 l2] eqn:E2. injection E as -> <-. destruct (H a s _ _ E1) as [Hb1 H1]; [discriminate|]. destruct (IH o s' _ _ E2 Hr) as [Hb2 H2].
        assert (calls f a s (Ok (o, s'))) as Hc by (eapply call_calls; [symmetry; exact Hs|discriminate]).
        split; [apply balanced_app; assumption|]. intros d. rewrite at_once_app by exact Hb1. rewrite H1, H2. split.
        * intros [[?|?]|[?|(a2 & s2 & Hm & Hn)]]; [auto|right; exists a, s; split; [constructor|assumption]|auto|right; exists a2, s2; split; [econstructor; eassumption|exact Hn]].
        * intros [?|(a2 & s2 & Hm & Hn)]; [auto|]. inversion Hm as [? ? ?|? ? ? o2 s3 ? ? Hc2 Hm2]; subst; [auto|]. right. right.
          assert (Ok (o, s') = Ok (o2, s3)) as Eq. { apply (calls_call f) in Hc2 as (m & Em & _). apply (calls_call f) in Hc as (m' & Em' & _). rewrite <- (call_more f m (m + m') a s _ ltac:(lia) Em), <- (call_more f m' (m + m') a s _ ltac:(lia) Em') by discriminate. reflexivity. }
          injection Eq as <- <-. eauto.
      + injection E as <- <-. destruct (H a s _ _ E1) as [Hb1 H1]; [discriminate|]. split; [exact Hb1|]. intros d. rewrite H1. split.
        * intros [?|?]; [auto|]. right. exists a, s. split; [constructor|assumption].
        * intros [?|(a2 & s2 & Hm & Hn)]; [auto|]. inversion Hm as [? ? ?|? ? ? o2 s3 ? ? Hc2 Hm2]; subst; [auto|]. exfalso.
          apply (calls_call f) in Hc2 as (m & Em & _). pose proof (call_more f m (m + n) a s _ ltac:(lia) Em ltac:(discriminate)) as X. rewrite (call_more f n (m + n) a s Panic ltac:(lia) (eq_sym Hs) ltac:(discriminate)) in X. discriminate.
      + injection E as <- <-. congruence.
  Qed.
  Lemma call_log_ok n : forall a s r l, call_log f n a s = (r, l) -> r <> Diverge -> log_ok a s l.
  Proof.
    induction n as [|n IH]; intros a s r l E Hr; [cbn in E; congruence|]. cbn [call_log] in E. destruct (exec_log (call_log f n) (f a s)) as [r2 l2] eqn:E2. injection E as -> <-.
    destruct (exec_log_ok n IH _ _ _ E2 Hr) as [Hb H]. split; [constructor; [exact Hb|constructor]|]. intros [|d].
    - split; [auto|]. intros _. exists [], (Taken :: l2 ++ [Dropped]). split; [reflexivity|lia].
    - rewrite at_once_wrap by exact Hb. rewrite H. split.
      + intros [->|(a' & s' & Hm & Hn)]; right; [constructor|econstructor; eassumption].
      + intros [?|Hn]; [lia|]. inversion Hn; subst; [auto|]. right. eauto.
  Qed.
End proof.

(** C99: call with the log of references does what call does; when it ends no reference is left in use, and d references to the
    closure are in use at some time exactly if d calls happen inside each other. *)
Theorem C99_references : forall A O St (f : A -> St -> code A O St) fuel a s,
  (call_log f fuel a s).1 = call f fuel a s /\
  (call f fuel a s <> Diverge ->
     in_use (call_log f fuel a s).2 = 0 /\ forall d, 1 <= d -> (at_once d (call_log f fuel a s).2 <-> nested f a s d)).
Proof.
  intros A O St f fuel a s. pose proof (call_log_same f fuel a s) as Hs. split; [exact Hs|]. intros Hr. rewrite <- Hs in Hr. destruct (call_log f fuel a s) as [r l] eqn:E. cbn [fst snd] in *.
  destruct (call_log_ok f fuel a s r l E Hr) as [Hb H]. split; [apply balanced_in_use, Hb|]. intros d Hd. rewrite H. split; [intros [?|?]; [lia|assumption]|auto].
Qed.
Print Assumptions C99_references.

(** C99: so two of these references are in use at once exactly for the calls in which the closure calls itself. *)
Theorem C99_aliased : forall A O St (f : A -> St -> code A O St) fuel a s, call f fuel a s <> Diverge ->
  (at_once 2 (call_log f fuel a s).2 <-> exists a' s', makes f (f a s) a' s').
Proof.
  intros A O St f fuel a s Hr. destruct (C99_references A O St f fuel a s) as [_ H]. destruct (H Hr) as [_ H2]. rewrite (H2 2) by lia. split; intros Hn.
  - inversion Hn; subst. eauto.
  - destruct Hn as (a' & s' & Hm). econstructor; [exact Hm|constructor].
Qed.
Print Assumptions C99_aliased.

Example C99_nonvacuous :
  call fib_body 4 3 0 = Ok (2, 5) /\
  (call_log fib_body 4 3 0).2 = [Taken; Taken; Taken; Dropped; Taken; Dropped; Dropped; Taken; Dropped; Dropped] /\
  nested fib_body 3 0 3 /\ ~ nested fib_body 3 0 4 /\ at_once 2 (call_log fib_body 4 3 0).2 /\ ~ at_once 2 (call_log fib_body 4 1 0).2.
Proof.
  assert (call fib_body 4 3 0 = Ok (2, 5)) as E by (vm_compute; reflexivity).
  assert (call fib_body 4 1 0 = Ok (1, 1)) as E1 by (vm_compute; reflexivity).
  destruct (C99_references _ _ _ fib_body 4 3 0) as [_ H]. destruct H as [_ H]; [rewrite E; discriminate|].
  split; [exact E|]. split; [vm_compute; reflexivity|].
  split. { apply H; [lia|]. exists [Taken; Taken; Taken]. eexists. split; [vm_compute; reflexivity|]. vm_compute. lia. }
  split. { rewrite <- H by lia. intros (now & later & El & Hd). vm_compute in El. repeat (destruct now as [|? now]; [vm_compute in Hd; lia|cbn [app] in El; injection El as <- El]). discriminate El || (destruct now; [vm_compute in Hd; lia|discriminate El]). }
  split. { apply C99_aliased; [rewrite E; discriminate|]. eexists _, _. apply makes_first. }
  rewrite C99_aliased by (rewrite E1; discriminate). intros (a' & s' & Hm). inversion Hm.
Qed.
