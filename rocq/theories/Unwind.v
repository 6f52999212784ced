(** Programs that may unwind: what is left in memory when a call panics half way.
    A computation takes the memory of the structure to its new content together with the result, None when it unwound;
    what was written before the panic stays.  Diverge stays apart. *)
From Verif Require Import Prelude.

Definition uw (X A : Type) : Type := X -> res (X * option A).

Definition uret {X A} (a : A) : uw X A := fun s => Ok (s, Some a).
(** `a ; b`: unwinding in a skips b. *)
Definition ubind {X A B} (m : uw X A) (k : A -> uw X B) : uw X B :=
  fun s => '(s, o) ← m s; match o with Some a => k a s | None => Ok (s, None) end.
(** A read of the memory that may panic. *)
Definition uread {X A} (r : X -> res A) : uw X A :=
  fun s => match r s with Ok a => Ok (s, Some a) | Panic => Ok (s, None) | Diverge => Diverge end.
(** A single write that may panic; a write that panics changes nothing. *)
Definition uwrite {X} (w : X -> res X) : uw X unit :=
  fun s => match w s with Ok s' => Ok (s', Some tt) | Panic => Ok (s, None) | Diverge => Diverge end.
(** `for x in xs { body }` with local variables b *)
Fixpoint ufor {X A B} (xs : list A) (body : A -> B -> uw X B) (b : B) : uw X B :=
  match xs with
  | [] => uret b
  | x :: xs => ubind (body x b) (ufor xs body)
  end.
(** `loop`, bounded by fuel *)
Fixpoint uloop {X B R} (fuel : nat) (step : B -> uw X (B + R)) (b : B) : uw X R :=
  match fuel with
  | O => fun _ => Diverge
  | S fuel => ubind (step b) (fun r => match r with inl b => uloop fuel step b | inr r => uret r end)
  end.
(** catch_unwind around a call: the caller carries on with the memory left behind. *)
Definition caught {X A} (m : uw X A) (s : X) : res X := '(s, _) ← m s; Ok s.

Notation "x <~ m ;~ k" := (ubind m (fun x => k)) (at level 20, m at level 100, k at level 200, only parsing).
Notation "m ;;~ k" := (ubind m (fun _ => k)) (at level 100, k at level 200, right associativity, only parsing).

(** The same computation when nobody catches the panic. *)
Definition strip {X A} (r : res (X * option A)) : res (X * A) :=
  '(s, o) ← r; match o with Some a => Ok (s, a) | None => Panic end.

Lemma strip_bind {X A B} (m : uw X A) (k : A -> uw X B) s : strip (ubind m k s) = ('(s, a) ← strip (m s); strip (k a s)).
Proof. unfold strip, ubind. destruct (m s) as [[s' [a|]]| |]; reflexivity. Qed.
Lemma strip_ret {X A} (a : A) (s : X) : strip (uret a s) = Ok (s, a).
Proof. reflexivity. Qed.
Lemma strip_read {X A} (r : X -> res A) s : strip (uread r s) = (a ← r s; Ok (s, a)).
Proof. unfold strip, uread. destruct (r s); reflexivity. Qed.
Lemma strip_write {X} (w : X -> res X) s : strip (uwrite w s) = (s ← w s; Ok (s, tt)).
Proof. unfold strip, uwrite. destruct (w s); reflexivity. Qed.

Lemma strip_for {X A B} (body : A -> B -> uw X B) (bodyr : A -> X * B -> res (X * B)) :
  (forall x b s, strip (body x b s) = bodyr x (s, b)) ->
  forall xs b s, strip (ufor xs body b s) = rfor xs bodyr (s, b).
Proof.
  intros H. induction xs as [|x xs IH]; intros b s; [reflexivity|]. cbn [ufor rfor]. rewrite strip_bind, H.
  destruct (bodyr x (s, b)) as [[s' b']| |]; cbn [mbind res_bind]; [apply IH|reflexivity|reflexivity].
Qed.

Lemma strip_Ok {X A} (r : res (X * option A)) s a : strip r = Ok (s, a) -> r = Ok (s, Some a).
Proof. unfold strip. destruct r as [[s' [a'|]]| |]; cbn; congruence. Qed.
Lemma strip_Panic {X A} (r : res (X * option A)) : strip r = Panic -> r = Panic \/ exists s, r = Ok (s, None).
Proof. unfold strip. destruct r as [[s' [a'|]]| |]; cbn; try congruence; eauto. Qed.
Lemma ubind_ok {X A B} (m : uw X A) (k : A -> uw X B) s s' a : m s = Ok (s', Some a) -> ubind m k s = k a s'.
Proof. intros H. unfold ubind. rewrite H. reflexivity. Qed.
Lemma ubind_unwound {X A B} (m : uw X A) (k : A -> uw X B) s s' : m s = Ok (s', None) -> ubind m k s = Ok (s', None).
Proof. intros H. unfold ubind. rewrite H. reflexivity. Qed.
Lemma uread_ok {X A} (r : X -> res A) s a : r s = Ok a -> uread r s = Ok (s, Some a).
Proof. intros H. unfold uread. rewrite H. reflexivity. Qed.
Lemma uread_panic {X A} (r : X -> res A) s : r s = Panic -> uread r s = Ok (s, None).
Proof. intros H. unfold uread. rewrite H. reflexivity. Qed.
Lemma uwrite_ok {X} (w : X -> res X) s s' : w s = Ok s' -> uwrite w s = Ok (s', Some tt).
Proof. intros H. unfold uwrite. rewrite H. reflexivity. Qed.
Lemma uwrite_panic {X} (w : X -> res X) s : w s = Panic -> uwrite w s = Ok (s, None).
Proof. intros H. unfold uwrite. rewrite H. reflexivity. Qed.
Lemma ufor_app {X A B} (l1 l2 : list A) (body : A -> B -> uw X B) b s : ufor (l1 ++ l2) body b s = ubind (ufor l1 body b) (ufor l2 body) s.
Proof.
  revert b s. induction l1 as [|x l1 IH]; intros b s; [reflexivity|]. cbn [app ufor]. unfold ubind at 1 2 3.
  destruct (body x b s) as [[s' [b'|]]| |]; cbn [mbind res_bind]; [|reflexivity|reflexivity|reflexivity]. apply IH.
Qed.

Lemma ufor_inv {X A B} (I : list A -> B -> X -> Prop) (U : X -> Prop) (xs : list A) (body : A -> B -> uw X B) :
  (forall d x rest b s, xs = d ++ x :: rest -> I d b s ->
     match body x b s with Ok (s', Some b') => I (d ++ [x]) b' s' | Ok (s', None) => U s' | _ => False end) ->
  forall b s, I [] b s -> match ufor xs body b s with Ok (s', Some b') => I xs b' s' | Ok (s', None) => U s' | _ => False end.
Proof.
  intros H. assert (forall rest d b s, xs = d ++ rest -> I d b s ->
    match ufor rest body b s with Ok (s', Some b') => I xs b' s' | Ok (s', None) => U s' | _ => False end) as G.
  { induction rest as [|x rest IH]; intros d b s Hx HI.
    - rewrite app_nil_r in Hx. subst d. exact HI.
    - cbn [ufor]. unfold ubind. specialize (H d x rest b s Hx HI). destruct (body x b s) as [[s' [b'|]]| |]; cbn [mbind res_bind]; [|exact H|exact H|exact H].
      apply (IH (d ++ [x])); [rewrite <- app_assoc; exact Hx|exact H]. }
  intros b s. apply (G xs []). reflexivity.
Qed.
Lemma uloop_inv {X B R} (I : nat -> B -> X -> Prop) (Q : R -> X -> Prop) (U : X -> Prop) (step : B -> uw X (B + R)) :
  (forall m b s, I m b s -> match step b s with
     | Ok (s', Some (inl b')) => exists m', m' < m /\ I m' b' s'
     | Ok (s', Some (inr r)) => Q r s'
     | Ok (s', None) => U s'
     | _ => False end) ->
  forall fuel m b s, m < fuel -> I m b s -> match uloop fuel step b s with Ok (s', Some r) => Q r s' | Ok (s', None) => U s' | _ => False end.
Proof.
  intros H. induction fuel as [|fuel IH]; intros m b s Hm HI; [lia|]. cbn [uloop]. unfold ubind. specialize (H m b s HI).
  destruct (step b s) as [[s' [[b'|r]|]]| |]; cbn [mbind res_bind]; [|exact H|exact H|exact H|exact H].
  destruct H as (m' & Hm' & HI'). apply (IH m'); [lia|exact HI'].
Qed.

(** A history of calls, every panic caught: the results, None for the calls that unwound. *)
Fixpoint urun {X Op Out} (step : Op -> uw X Out) (s : X) (ops : list Op) : res (X * list (option Out)) :=
  match ops with
  | [] => Ok (s, [])
  | o :: ops =>
      '(s, out) ← step o s;
      '(s, outs) ← urun step s ops;
      Ok (s, out :: outs)
  end.

(** A machine that may refuse a call: the refused call leaves the state alone. *)
Fixpoint run_refusing {St Op Out} (step : St -> Op -> res (St * Out)) (s : St) (ops : list Op) : list (option Out) :=
  match ops with
  | [] => []
  | o :: ops =>
      match step s o with
      | Ok (s, out) => Some out :: run_refusing step s ops
      | _ => None :: run_refusing step s ops
      end
  end.
