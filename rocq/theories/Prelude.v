(** Shared semantics: panics, indexing, loops.  Nothing here models a specific
    repository function; it fixes how Rust constructs are rendered. *)
From stdpp Require Export list numbers option list_numbers.
From Coq Require Export Lia ZArith.

Global Arguments Nat.div : simpl never.
Global Arguments Nat.modulo : simpl never.
Global Arguments Nat.pow : simpl never.
Global Arguments Nat.mul : simpl never.
Global Arguments Nat.even : simpl never.
Global Arguments Nat.odd : simpl never.
Global Arguments Nat.ltb : simpl never.
Global Arguments Nat.leb : simpl never.
Global Arguments Nat.eqb : simpl never.
Global Arguments Z.mul : simpl never.
Global Arguments Z.add : simpl never.
Global Arguments Z.sub : simpl never.
Global Arguments Z.div : simpl never.
Global Arguments Z.modulo : simpl never.
Global Arguments Z.pow : simpl never.

(** Result of running Rust code: a value, a panic (assert!, index out of range,
    unwrap on None, overflow with checks on, division by zero), or exhausted fuel. *)
Inductive res (A : Type) : Type :=
| Ok (a : A)
| Panic
| Diverge.
Arguments Ok {A} a.
Arguments Panic {A}.
Arguments Diverge {A}.

Global Instance res_ret : MRet res := fun A a => Ok a.
Global Instance res_bind : MBind res := fun A B f m =>
  match m with Ok a => f a | Panic => Panic | Diverge => Diverge end.
Global Instance res_fmap : FMap res := fun A B f m =>
  match m with Ok a => Ok (f a) | Panic => Panic | Diverge => Diverge end.

Definition is_ok {A} (m : res A) : Prop := exists a, m = Ok a.

(** assert!(b) *)
Definition rassert (b : bool) : res unit := if b then Ok tt else Panic.

(** v[i] on a Vec/slice/array *)
Definition vget {A} (v : list A) (i : nat) : res A :=
  match v !! i with Some a => Ok a | None => Panic end.

(** v[i] = x *)
Definition vset {A} (v : list A) (i : nat) (x : A) : res (list A) :=
  if decide (i < length v) then Ok (<[i:=x]> v) else Panic.

(** Option::unwrap *)
Definition runwrap {A} (o : option A) : res A :=
  match o with Some a => Ok a | None => Panic end.

(** `for x in xs { s = body(x, s) }` *)
Fixpoint rfor {A S} (xs : list A) (body : A -> S -> res S) (s : S) : res S :=
  match xs with
  | [] => Ok s
  | x :: xs => s' ← body x s; rfor xs body s'
  end.

(** a..b and a..=b *)
Definition range (a b : nat) : list nat := seq a (b - a).
Definition range_incl (a b : nat) : list nat := seq a (S b - a).

(** Generic loop: [step s = Ok (inl s')] goes on, [Ok (inr r)] leaves the loop with [r]. *)
Fixpoint rloop {S R} (fuel : nat) (step : S -> res (S + R)) (s : S) : res R :=
  match fuel with
  | O => Diverge
  | Datatypes.S fuel =>
      r ← step s;
      match r with
      | inl s' => rloop fuel step s'
      | inr r => Ok r
      end
  end.

(** ** Lemmas *)
Lemma rbind_ok {A B} (a : A) (f : A -> res B) : (Ok a ≫= f) = f a.
Proof. reflexivity. Qed.

Lemma rbind_ok_inv {A B} (m : res A) (f : A -> res B) b :
  m ≫= f = Ok b -> exists a, m = Ok a /\ f a = Ok b.
Proof. destruct m; cbn; intros H; try discriminate; eauto. Qed.

Lemma vget_ok {A} (v : list A) i a : v !! i = Some a -> vget v i = Ok a.
Proof. intros H. unfold vget. rewrite H. reflexivity. Qed.

Lemma vget_ok_iff {A} (v : list A) i a : vget v i = Ok a <-> v !! i = Some a.
Proof. unfold vget. destruct (v !! i); split; intros H; congruence. Qed.

Lemma vget_lt {A} (v : list A) i : i < length v -> exists a, vget v i = Ok a /\ v !! i = Some a.
Proof. intros H. destruct (lookup_lt_is_Some_2 v i H) as [a Ha]. exists a. split; [apply vget_ok|]; exact Ha. Qed.

Lemma vget_panic {A} (v : list A) i : length v <= i -> vget v i = Panic.
Proof. intros H. unfold vget. rewrite lookup_ge_None_2; auto. Qed.

Lemma vset_ok {A} (v : list A) i x : i < length v -> vset v i x = Ok (<[i:=x]> v).
Proof. intros H. unfold vset. rewrite decide_True; auto. Qed.

Lemma vset_panic {A} (v : list A) i x : length v <= i -> vset v i x = Panic.
Proof. intros H. unfold vset. rewrite decide_False; auto; lia. Qed.

Lemma rfor_app {A S} (xs ys : list A) (body : A -> S -> res S) s :
  rfor (xs ++ ys) body s = (s' ← rfor xs body s; rfor ys body s').
Proof.
  revert s; induction xs as [|x xs IH]; intros s; [reflexivity|].
  cbn [rfor app]. destruct (body x s); cbn; auto.
Qed.

(** Invariant rule for [rfor]: [I done s] where [done] is the consumed prefix. *)
Lemma rfor_inv {A S} (I : list A -> S -> Prop) (xs : list A) (body : A -> S -> res S) s :
  I [] s ->
  (forall done x rest s, xs = done ++ x :: rest -> I done s ->
     exists s', body x s = Ok s' /\ I (done ++ [x]) s') ->
  exists s', rfor xs body s = Ok s' /\ I xs s'.
Proof.
  intros H0 Hstep.
  assert (forall rest done s, xs = done ++ rest -> I done s ->
            exists s', rfor rest body s = Ok s' /\ I xs s') as H.
  { induction rest as [|x rest IH]; intros done s1 Hx HI.
    - rewrite app_nil_r in Hx. subst. exists s1. auto.
    - destruct (Hstep done x rest s1 Hx HI) as (s2 & Hb & HI2).
      cbn [rfor]. rewrite Hb. cbn.
      apply (IH (done ++ [x])); [|exact HI2].
      rewrite <- app_assoc. exact Hx. }
  apply (H xs [] s); auto.
Qed.

(** Invariant rule for ascending ranges: the invariant is indexed by the counter. *)
Lemma rfor_range_inv {S} (I : nat -> S -> Prop) a b (body : nat -> S -> res S) s :
  a <= b -> I a s ->
  (forall i s, a <= i < b -> I i s -> exists s', body i s = Ok s' /\ I (i + 1) s') ->
  exists s', rfor (seq a (b - a)) body s = Ok s' /\ I b s'.
Proof.
  intros Hab H0 Hstep.
  remember (b - a) as k eqn:Hk. revert a s Hab H0 Hstep Hk.
  induction k as [|k IH]; intros a s Hab H0 Hstep Hk.
  - assert (a = b) by lia. subst. exists s. auto.
  - cbn [seq rfor]. destruct (Hstep a s) as (s' & Hb & HI); [lia|exact H0|].
    rewrite Hb. cbn. replace (Datatypes.S a) with (a + 1) by lia.
    apply (IH (a + 1)); [lia|exact HI| |lia].
    intros i s1 Hi. apply Hstep. lia.
Qed.

(** Invariant rule for descending ranges `(a..b).rev()`: before handling index i, [I (i+1)]; after, [I i]. *)
Lemma rfor_rev_range_inv {S} (I : nat -> S -> Prop) a b (body : nat -> S -> res S) s :
  a <= b -> I b s ->
  (forall i s, a <= i < b -> I (i + 1) s -> exists s', body i s = Ok s' /\ I i s') ->
  exists s', rfor (rev (seq a (b - a))) body s = Ok s' /\ I a s'.
Proof.
  intros Hab H0 Hstep.
  remember (b - a) as k eqn:Hk. revert b s Hab H0 Hstep Hk.
  induction k as [|k IH]; intros b s Hab H0 Hstep Hk.
  - assert (a = b) by lia. subst. exists s. auto.
  - rewrite seq_S, rev_app_distr. cbn [rev app rfor].
    destruct (Hstep (a + k) s) as (s' & Hb & HI);
      [lia|replace (a + k + 1) with b by lia; exact H0|].
    rewrite Hb. cbn.
    apply (IH (a + k)); [lia|exact HI| |lia].
    intros i s1 Hi. apply Hstep. lia.
Qed.

(** Total-correctness rule for [rloop]. *)
Lemma rloop_inv {S R} (I : S -> Prop) (Q : R -> Prop) (m : S -> nat) (step : S -> res (S + R)) :
  (forall s, I s -> exists o, step s = Ok o /\
     match o with inl s' => I s' /\ m s' < m s | inr r => Q r end) ->
  forall fuel s, I s -> m s < fuel -> exists r, rloop fuel step s = Ok r /\ Q r.
Proof.
  intros Hstep fuel. induction fuel as [|fuel IH]; intros s HI Hm; [lia|].
  cbn [rloop]. destruct (Hstep s HI) as (o & Ho & Hmatch).
  rewrite Ho. cbn. destruct o as [s'|r].
  - destruct Hmatch as [HI' Hlt]. apply IH; [exact HI'|lia].
  - eauto.
Qed.

(** The same with the measure carried by the invariant. *)
Lemma rloop_inv_idx {S R} (I : nat -> S -> Prop) (Q : R -> Prop) (step : S -> res (S + R)) :
  (forall m s, I m s -> exists o, step s = Ok o /\
     match o with inl s' => exists m', m' < m /\ I m' s' | inr r => Q r end) ->
  forall fuel m s, I m s -> m < fuel -> exists r, rloop fuel step s = Ok r /\ Q r.
Proof.
  intros Hstep fuel. induction fuel as [|fuel IH]; intros m s HI Hm; [lia|].
  cbn [rloop]. destruct (Hstep m s HI) as (o & Ho & Hmatch).
  rewrite Ho. cbn. destruct o as [s'|r].
  - destruct Hmatch as (m' & Hlt & HI'). apply (IH m'); [exact HI'|lia].
  - eauto.
Qed.
