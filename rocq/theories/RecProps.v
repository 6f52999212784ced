(** RecursiveFunction: main theorems (C52). *)
From Verif Require Import Prelude RecModel.

Section spec.
  Context {A O St : Type} (f : A -> St -> code A O St).
  (** The least relation with: a call gives what the body gives, when its recursive calls give what calls give. *)
  Inductive calls : A -> St -> res (O * St) -> Prop :=
  | calls_body a s r : runs (f a s) r -> calls a s r
  with runs : code A O St -> res (O * St) -> Prop :=
  | runs_done r : r <> Diverge -> runs (Done r) r
  | runs_rec a s k o s' r : calls a s (Ok (o, s')) -> runs (k o s') r -> runs (Rec a s k) r
  | runs_panic a s k : calls a s Panic -> runs (Rec a s k) Panic.

  Lemma exec_more n m : (forall a s r, call f n a s = r -> r <> Diverge -> call f m a s = r) -> forall c r, exec (call f n) c = r -> r <> Diverge -> exec (call f m) c = r.
  Proof.
    intros H. induction c as [r'|a s k IH]; intros r E Hr; cbn [exec] in *; [exact E|].
    destruct (call f n a s) as [[o s']| |] eqn:Ec; cbn [mbind res_bind] in E.
    - rewrite (H a s _ Ec) by discriminate. cbn [mbind res_bind]. apply IH; auto.
    - rewrite (H a s _ Ec) by discriminate. exact E.
    - congruence.
  Qed.
  Lemma call_more n m a s r : n <= m -> call f n a s = r -> r <> Diverge -> call f m a s = r.
  Proof.
    revert m a s r. induction n as [|n IH]; intros m a s r Hm E Hr; [cbn in E; congruence|]. destruct m as [|m]; [lia|]. cbn [call] in *. apply (exec_more n m); [|exact E|exact Hr]. intros a' s' r' E' Hr'. apply IH; auto. lia.
  Qed.
  Lemma exec_runs n : (forall a s r, call f n a s = r -> r <> Diverge -> calls a s r) -> forall c r, exec (call f n) c = r -> r <> Diverge -> runs c r.
  Proof.
    intros H. induction c as [r'|a s k IH]; intros r E Hr; cbn [exec] in *; [subst; constructor; exact Hr|].
    destruct (call f n a s) as [[o s']| |] eqn:Ec; cbn [mbind res_bind] in E.
    - eapply runs_rec; [eapply H; [exact Ec|discriminate]|]. apply IH; auto.
    - subst r. apply runs_panic. eapply H; [exact Ec|discriminate].
    - congruence.
  Qed.
  Lemma call_calls n : forall a s r, call f n a s = r -> r <> Diverge -> calls a s r.
  Proof. induction n as [|n IH]; intros a s r E Hr; [cbn in E; congruence|]. constructor. apply (exec_runs n); auto. Qed.

  Scheme calls_ind2 := Induction for calls Sort Prop with runs_ind2 := Induction for runs Sort Prop.
  Lemma calls_call a s r : calls a s r -> exists n, call f n a s = r /\ r <> Diverge.
  Proof.
    revert a s r. apply (calls_ind2 (fun a s r _ => exists n, call f n a s = r /\ r <> Diverge) (fun c r _ => exists n, exec (call f n) c = r /\ r <> Diverge)).
    - intros a s r _ (n & E & Hr). exists (S n). auto.
    - intros r Hr. exists 0. auto.
    - intros a s k o s' r _ (n & E & _) _ (n' & E' & Hr). exists (n + n'). split; [|exact Hr]. cbn [exec]. rewrite (call_more n (n + n') a s _ ltac:(lia) E) by discriminate. cbn [mbind res_bind].
      eapply exec_more; [|exact E'|exact Hr]. intros a' s2 r' E2. apply (call_more n' (n + n')); [lia|exact E2].
    - intros a s k _ (n & E & _). exists n. split; [|discriminate]. cbn [exec]. rewrite E. reflexivity.
  Qed.
End spec.

(** C52: with enough fuel call gives exactly what the least fixed point of the closure gives: the captured state is
    threaded through the nested calls, and the result does not depend on the fuel. *)
Theorem C52_call : forall A O St (f : A -> St -> code A O St) a s r,
  ((exists fuel, call f fuel a s = r /\ r <> Diverge) <-> calls f a s r) /\
  (forall n m, n <= m -> call f n a s = r -> r <> Diverge -> call f m a s = r).
Proof.
  intros A O St f a s r. split; [split; [intros (n & E & Hr); eapply call_calls; eauto|apply calls_call]|]. intros n m. apply call_more.
Qed.
Print Assumptions C52_call.

(** C52: any function g that satisfies the recursive definition written in the closure agrees with call whenever call
    returns; and if the arguments of nested calls decrease along a measure, call returns. *)
Theorem C52_fixed_point : forall A O St (f : A -> St -> code A O St) (g : A -> St -> res (O * St)),
  (forall a s, g a s = exec g (f a s)) ->
  (forall fuel a s r, call f fuel a s = r -> r <> Diverge -> g a s = r) /\
  (forall mu : A -> nat,
     (forall a s, exec (fun a' s' => if decide (mu a' < mu a) then g a' s' else Diverge) (f a s) = g a s /\ g a s <> Diverge) ->
     forall a s, call f (S (mu a)) a s = g a s).
Proof.
  intros A O St f g Hg. split.
  - induction fuel as [|n IH]; intros a s r E Hr; [cbn in E; congruence|]. cbn [call] in E. rewrite Hg. revert r E Hr. induction (f a s) as [r'|a' s' k IHc]; intros r E Hr; cbn [exec] in *; [exact E|].
    destruct (call f n a' s') as [[o s2]| |] eqn:Ec; cbn [mbind res_bind] in E.
    + rewrite (IH _ _ _ Ec) by discriminate. cbn [mbind res_bind]. apply IHc; auto.
    + rewrite (IH _ _ _ Ec) by discriminate. exact E.
    + congruence.
  - intros mu H1. assert (forall n a s, mu a < n -> call f n a s = g a s) as Hn; [|intros a s; apply Hn; lia].
    induction n as [|n IH]; intros a s Hm; [lia|]. cbn [call]. destruct (H1 a s) as [E Hd].
    assert (forall c r, exec (fun a' s' => if decide (mu a' < mu a) then g a' s' else Diverge) c = r -> r <> Diverge -> exec (call f n) c = r) as Hc.
    { induction c as [r'|a' s' k IHc]; intros r E' Hr; cbn [exec] in *; [exact E'|]. destruct (decide (mu a' < mu a)) as [Hlt|_]; [|cbn in E'; congruence].
      rewrite IH by lia. destruct (g a' s') as [[o s2]| |]; cbn [mbind res_bind] in *; auto. }
    apply Hc; auto.
Qed.
Print Assumptions C52_fixed_point.

(** Fibonacci with a captured counter of the calls made. *)
Definition fib_body (n : nat) (calls : nat) : code nat nat nat :=
  match n with
  | 0 => Done (Ok (0, calls + 1))
  | 1 => Done (Ok (1, calls + 1))
  | S (S n as m) => Rec m (calls + 1) (fun x s => Rec n s (fun y s => Done (Ok (x + y, s))))
  end.
Example C52_nonvacuous : call fib_body 11 10 0 = Ok (55, 177) /\ call fib_body 9 10 0 = Diverge /\ calls fib_body 10 0 (Ok (55, 177)).
Proof. split; [vm_compute; reflexivity|]. split; [vm_compute; reflexivity|]. apply (C52_call _ _ _ fib_body 10 0). exists 11. split; [vm_compute; reflexivity|discriminate]. Qed.
