(** Programs that call functions with side effects: the state of the caller's closures is threaded through. *)
From stdpp Require Import relations.
From Verif Require Import Prelude ArraySpec.

(** A computation from the state before to the result and the state after. *)
Definition eff (W A : Type) : Type := W -> res (A * W).
Definition eret {W A} (a : A) : eff W A := fun w => Ok (a, w).
Definition ebind {W A B} (m : eff W A) (f : A -> eff W B) : eff W B := fun w => '(a, w) ← m w; f a w.
(** A part of the program that calls none of the functions. *)
Definition elift {W A} (r : res A) : eff W A := fun w => a ← r; Ok (a, w).
(** `for x in xs` and `loop`, as [rfor] and [rloop] *)
Fixpoint efor {W A S} (xs : list A) (body : A -> S -> eff W S) (s : S) : eff W S :=
  match xs with
  | [] => eret s
  | x :: xs => ebind (body x s) (efor xs body)
  end.
Fixpoint eloop {W S R} (fuel : nat) (step : S -> eff W (S + R)) (s : S) : eff W R :=
  match fuel with
  | O => fun _ => Diverge
  | Datatypes.S fuel => ebind (step s) (fun r => match r with inl s' => eloop fuel step s' | inr r => eret r end)
  end.
Notation "x <* m ;* k" := (ebind m (fun x => k)) (at level 20, m at level 100, k at level 200, only parsing).
Notation "' p <* m ;* k" := (ebind m (fun x => match x with p => k end)) (at level 20, p pattern, m at level 100, k at level 200, only parsing).
Notation "m ;;* k" := (ebind m (fun _ => k)) (at level 100, k at level 200, right associativity, only parsing).

(** A history of calls *)
Fixpoint erun {W St Op Out} (step : St -> Op -> eff W (St * Out)) (s : St) (ops : list Op) : eff W (St * list Out) :=
  match ops with
  | [] => eret (s, [])
  | o :: ops =>
      '(s, out) <* step s o ;*
      '(s, outs) <* erun step s ops ;*
      eret (s, out :: outs)
  end.

(** m does what r says, whatever the state, and the state makes k steps of [R] on the way; c is enough for k and what is left
    after the result a. *)
Definition spends {W A} (R : relation W) (c : nat) (left : A -> nat) (m : eff W A) (r : res A) : Prop :=
  forall w, match r with
    | Ok a => exists w' k, m w = Ok (a, w') /\ nsteps R k w w' /\ k + left a <= c
    | Panic => m w = Panic
    | Diverge => m w = Diverge
    end.

Section Rules.
  Context {W : Type} (R : relation W).

  Lemma spends_weak {A} c c' (q q' : A -> nat) m r : spends R c q m r -> c <= c' -> (forall a, r = Ok a -> q' a <= q a) -> spends R c' q' m r.
  Proof. intros H Hc Hq w. specialize (H w). destruct r as [a| |]; [|exact H|exact H]. destruct H as (w' & k & E & N & L). specialize (Hq a eq_refl). exists w', k. repeat split; auto; lia. Qed.
  Lemma spends_ret {A} c (q : A -> nat) a : q a <= c -> spends R c q (eret a) (Ok a).
  Proof. intros H w. exists w, 0. repeat split; [constructor|lia]. Qed.
  Lemma spends_lift {A} c (q : A -> nat) r : (forall a, r = Ok a -> q a <= c) -> spends R c q (elift r) r.
  Proof. intros H w. unfold elift. destruct r as [a| |]; cbn; [|reflexivity|reflexivity]. specialize (H a eq_refl). exists w, 0. repeat split; [constructor|lia]. Qed.
  Lemma spends_bind {A B} c (q1 : A -> nat) (q : B -> nat) m r (f : A -> eff W B) (g : A -> res B) :
    spends R c q1 m r -> (forall a, r = Ok a -> spends R (q1 a) q (f a) (g a)) -> spends R c q (ebind m f) (r ≫= g).
  Proof.
    intros H1 H2 w. specialize (H1 w). unfold ebind. destruct r as [a| |]; cbn [mbind res_bind]; [|rewrite H1; reflexivity|rewrite H1; reflexivity].
    destruct H1 as (w1 & k1 & E1 & N1 & L1). rewrite E1. cbn [mbind res_bind]. specialize (H2 a eq_refl w1). destruct (g a) as [b| |]; [|exact H2|exact H2].
    destruct H2 as (w2 & k2 & E2 & N2 & L2). exists w2, (k1 + k2). split; [exact E2|]. split; [eapply nsteps_trans; eassumption|lia].
  Qed.
  Lemma spends_lift_bind {A B} c (q : B -> nat) r (f : A -> eff W B) (g : A -> res B) :
    (forall a, r = Ok a -> spends R c q (f a) (g a)) -> spends R c q (ebind (elift r) f) (r ≫= g).
  Proof. intros H. apply (spends_bind c (fun _ => c)); [apply spends_lift; auto|exact H]. Qed.
  (** a call of a function of the caller *)
  Lemma spends_call_bind {A B} c c' (q : B -> nat) m r (f : A -> eff W B) (g : A -> res B) :
    spends R 1 (fun _ => 0) m r -> 1 + c' <= c -> (forall a, r = Ok a -> spends R c' q (f a) (g a)) -> spends R c q (ebind m f) (r ≫= g).
  Proof.
    intros H Hc Hf. apply (spends_bind c (fun _ => c')); [|exact Hf]. intros w. specialize (H w). destruct r as [a| |]; [|exact H|exact H].
    destruct H as (w' & k & E & N & L). exists w', k. repeat split; auto. lia.
  Qed.
  (** a part that spends n *)
  Lemma spends_part_bind {A B} n c c' (q : B -> nat) m r (f : A -> eff W B) (g : A -> res B) :
    spends R n (fun _ => 0) m r -> n + c' <= c -> (forall a, r = Ok a -> spends R c' q (f a) (g a)) -> spends R c q (ebind m f) (r ≫= g).
  Proof.
    intros H Hc Hf. apply (spends_bind c (fun _ => c')); [|exact Hf]. intros w. specialize (H w). destruct r as [a| |]; [|exact H|exact H].
    destruct H as (w' & k & E & N & L). exists w', k. repeat split; auto. lia.
  Qed.
  Lemma spends_assert {B} c (q : B -> nat) b (m : eff W B) r : (b = true -> spends R c q m r) -> spends R c q (ebind (elift (rassert b)) (fun _ => m)) (rassert b ≫= fun _ => r).
  Proof. intros H. apply spends_lift_bind. intros a E. apply H. destruct b; [reflexivity|discriminate]. Qed.
  Lemma spends_for {A S} c n (xs : list A) (body : A -> S -> eff W S) bodyr s :
    (forall x s, x ∈ xs -> spends R n (fun _ => 0) (body x s) (bodyr x s)) -> length xs * n <= c ->
    spends R c (fun _ => 0) (efor xs body s) (rfor xs bodyr s).
  Proof.
    revert c s. induction xs as [|x xs IH]; intros c s H Hc; cbn [efor rfor length] in *; [apply spends_ret; lia|].
    eapply (spends_part_bind n c (length xs * n)); [apply H; constructor|lia|]. intros s' _. apply IH; [|lia]. intros y s0 Hy. apply H. constructor. exact Hy.
  Qed.
  Lemma spends_loop {S A} (I : S -> Prop) (pot : S -> nat) (q : A -> nat) (step : S -> eff W (S + A)) stepr :
    (forall s, I s -> spends R (pot s) (fun x => match x with inl s' => pot s' | inr a => q a end) (step s) (stepr s)) ->
    (forall s s', I s -> stepr s = Ok (inl s') -> I s') ->
    forall fuel s, I s -> spends R (pot s) q (eloop fuel step s) (rloop fuel stepr s).
  Proof.
    intros H HI. induction fuel as [|fuel IH]; intros s Hs; [intros w; reflexivity|]. cbn [eloop rloop].
    eapply spends_bind; [apply H, Hs|]. intros [s'|a] E; cbn beta; [apply IH; eapply HI; eassumption|apply spends_ret; lia].
  Qed.
  Lemma spends_run {St Op Op' Out} (J : St -> Prop) (Q : Op -> Prop) (pl : Op -> Op') (budget : Op' -> nat) (step : St -> Op -> eff W (St * Out)) stepr :
    (forall s o, J s -> Q o -> spends R (budget (pl o)) (fun _ => 0) (step s o) (stepr s (pl o))) ->
    (forall s o s' out, J s -> stepr s o = Ok (s', out) -> J s') ->
    forall ops s, J s -> Forall Q ops -> spends R (sum_list_with budget (pl <$> ops)) (fun _ => 0) (erun step s ops) (ArraySpec.run stepr s (pl <$> ops)).
  Proof.
    intros H HJ. induction ops as [|o ops IH]; intros s Hs HQ; [apply spends_ret; cbn; lia|]. apply Forall_cons in HQ as [Q1 HQ]. cbn [erun ArraySpec.run fmap list_fmap sum_list_with].
    eapply spends_part_bind; [apply H; assumption|reflexivity|]. intros [s' out] E. eapply (spends_part_bind _ _ 0); [apply IH; [eapply HJ; eassumption|exact HQ]|unfold fmap; lia|].
    intros [s2 outs] _. apply spends_ret. lia.
  Qed.
End Rules.
