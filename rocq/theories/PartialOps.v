(** Operations supplied by the user that may panic: vocabulary and loop lemmas. *)
From Verif Require Import Prelude ArraySpec.

(** [opc] is the operation as the program runs it; it does what [op] says whenever the result is [good] (for checked machine
    arithmetic: the result fits the type) and may do anything otherwise. *)
Definition agrees {A B C} (good : C -> Prop) (op : A -> B -> C) (opc : A -> B -> res C) : Prop :=
  forall x y, good (op x y) -> opc x y = Ok (op x y).

(** Every range of the array has a good product (the empty ranges included). *)
Definition ranges_good {S} (e : S) (op : S -> S -> S) (good : S -> Prop) (a : list S) : Prop :=
  forall l r, l <= r <= length a -> good (mprod e op (slice a l r)).

(** [P] holds of the plain state before the first and after every call of the history. *)
Fixpoint always {St Op Out} (step : St -> Op -> res (St * Out)) (P : St -> Prop) (s : St) (ops : list Op) : Prop :=
  P s /\
  match ops with
  | [] => True
  | o :: ops => match step s o with Ok (s', _) => always step P s' ops | _ => True end
  end.

(** Two loops whose bodies agree on the states that satisfy an invariant. *)
Lemma rloop_ext {S R} (I : S -> Prop) (step step' : S -> res (S + R)) :
  (forall s, I s -> step' s = step s /\ forall s', step s = Ok (inl s') -> I s') ->
  forall fuel s, I s -> rloop fuel step' s = rloop fuel step s.
Proof.
  intros H fuel. induction fuel as [|fuel IH]; intros s HI; [reflexivity|]. cbn [rloop].
  destruct (H s HI) as [-> Hn]. destruct (step s) as [[s'|r]| |]; cbn; auto.
Qed.

Lemma rfor_ext {A S} (I : list A -> S -> Prop) (xs : list A) (body body' : A -> S -> res S) s :
  I [] s ->
  (forall done x rest s, xs = done ++ x :: rest -> I done s ->
     body' x s = body x s /\ forall s', body x s = Ok s' -> I (done ++ [x]) s') ->
  rfor xs body' s = rfor xs body s.
Proof.
  intros H0 H.
  assert (forall rest done s, xs = done ++ rest -> I done s -> rfor rest body' s = rfor rest body s) as G.
  { induction rest as [|x rest IH]; intros done s1 Hx HI; [reflexivity|]. cbn [rfor].
    destruct (H done x rest s1 Hx HI) as [-> Hn]. destruct (body x s1) as [s2| |]; cbn; auto.
    apply (IH (done ++ [x])); [rewrite <- app_assoc; exact Hx|]. apply Hn. reflexivity. }
  apply (G xs []); auto.
Qed.

Lemma rfor_range_ext {S} (I : nat -> S -> Prop) a b (body body' : nat -> S -> res S) s :
  a <= b -> I a s ->
  (forall i s, a <= i < b -> I i s -> body' i s = body i s /\ forall s', body i s = Ok s' -> I (i + 1) s') ->
  rfor (seq a (b - a)) body' s = rfor (seq a (b - a)) body s.
Proof.
  intros Hab H0 H. remember (b - a) as k eqn:Hk. revert a s Hab H0 H Hk.
  induction k as [|k IH]; intros a s Hab H0 H Hk; [reflexivity|]. cbn [seq rfor].
  destruct (H a s) as [-> Hn]; [lia|exact H0|]. destruct (body a s) as [s2| |]; cbn; auto.
  replace (Datatypes.S a) with (a + 1) by lia. apply (IH (a + 1)); [lia|apply Hn; reflexivity| |lia].
  intros i s1 Hi. apply H. lia.
Qed.

Lemma rfor_rev_range_ext {S} (I : nat -> S -> Prop) a b (body body' : nat -> S -> res S) s :
  a <= b -> I b s ->
  (forall i s, a <= i < b -> I (i + 1) s -> body' i s = body i s /\ forall s', body i s = Ok s' -> I i s') ->
  rfor (rev (seq a (b - a))) body' s = rfor (rev (seq a (b - a))) body s.
Proof.
  intros Hab H0 H. remember (b - a) as k eqn:Hk. revert b s Hab H0 H Hk.
  induction k as [|k IH]; intros b s Hab H0 H Hk; [reflexivity|].
  rewrite seq_S, rev_app_distr. cbn [rev app rfor].
  destruct (H (a + k) s) as [-> Hn]; [lia|replace (a + k + 1) with b by lia; exact H0|].
  destruct (body (a + k) s) as [s2| |]; cbn; auto.
  apply (IH (a + k)); [lia|apply Hn; reflexivity| |lia]. intros i s1 Hi. apply H. lia.
Qed.

Lemma always_hd {St Op Out} (step : St -> Op -> res (St * Out)) P s ops : always step P s ops -> P s.
Proof. destruct ops; cbn; tauto. Qed.

(** Runs of two programs that agree on the states that satisfy an invariant. *)
Lemma run_ext {St Op Out A} (step step' : St -> Op -> res (St * Out)) (spec : A -> Op -> res (A * Out)) (P : A -> Prop) (I : St -> A -> Prop) :
  (forall t a o, I t a -> P a -> (forall a' out, spec a o = Ok (a', out) -> P a') ->
     step' t o = step t o /\
     match spec a o with
     | Ok (a', out) => exists t', step t o = Ok (t', out) /\ I t' a'
     | Panic => step t o = Panic
     | Diverge => False
     end) ->
  forall ops t a, I t a -> always spec P a ops -> run step' t ops = run step t ops.
Proof.
  intros H. induction ops as [|o ops IH]; intros t a HI HA; [reflexivity|]. cbn [run].
  destruct HA as [HP HA]. destruct (H t a o HI HP) as [-> Hs].
  { intros a' out E. rewrite E in HA. apply (always_hd _ _ _ _ HA). }
  destruct (spec a o) as [[a' out]| |]; [|rewrite Hs; reflexivity|contradiction].
  destruct Hs as (t' & -> & I'). cbn [mbind res_bind]. rewrite (IH t' a' I' HA). reflexivity.
Qed.

(** ** Operations that compute [op] exactly when the result fits, and panic otherwise *)
Definition exact {A B C} (fits : C -> bool) (op : A -> B -> C) (opc : A -> B -> res C) : Prop :=
  forall x y, opc x y = if fits (op x y) then Ok (op x y) else Panic.

Lemma exact_agrees {A B C} fits (op : A -> B -> C) opc : exact fits op opc -> agrees (fun c => fits c = true) op opc.
Proof. intros X x y H. rewrite X, H. reflexivity. Qed.

(** A loop whose body does what another body does or panics. *)
Lemma rfor_or_panic {A S} (I : S -> Prop) (xs : list A) (body body' : A -> S -> res S) s :
  I s ->
  (forall x s, x ∈ xs -> I s -> (body' x s = body x s \/ body' x s = Panic) /\ forall s', body' x s = Ok s' -> I s') ->
  (rfor xs body' s = rfor xs body s \/ rfor xs body' s = Panic) /\ forall s', rfor xs body' s = Ok s' -> I s'.
Proof.
  revert s. induction xs as [|x xs IH]; intros s HI H; cbn [rfor].
  - split; [left; reflexivity|]. intros s' E. injection E as <-. exact HI.
  - destruct (H x s) as [[E|E] Hn]; [left|exact HI| |].
    + rewrite E in *. destruct (body x s) as [s2| |]; cbn.
      * apply IH; [apply Hn; reflexivity|]. intros y s3 Hy. apply H. right. exact Hy.
      * split; [left; reflexivity|discriminate].
      * split; [left; reflexivity|discriminate].
    + rewrite E. cbn. split; [right; reflexivity|discriminate].
Qed.

(** ** Operations that compute [op] or panic, and programs that do what another does or panic *)
Definition or_panics {A B C} (op : A -> B -> C) (opc : A -> B -> res C) : Prop :=
  forall x y, opc x y = Ok (op x y) \/ opc x y = Panic.

Definition le_res {A} (x y : res A) : Prop := x = y \/ x = Panic.

Lemma le_refl {A} (x : res A) : le_res x x.
Proof. left. reflexivity. Qed.

Lemma le_bind {A B} (x y : res A) (f g : A -> res B) : le_res x y -> (forall a, le_res (f a) (g a)) -> le_res (x ≫= f) (y ≫= g).
Proof. intros [-> | ->] H; [|right; reflexivity]. destruct y; cbn; [apply H|left; reflexivity..]. Qed.

Lemma le_opc {A B C D} (op : A -> B -> C) opc (f : C -> res D) (g : res D) x y : or_panics op opc -> le_res (f (op x y)) g -> le_res (opc x y ≫= f) g.
Proof. intros O H. destruct (O x y) as [-> | ->]; cbn; [exact H|right; reflexivity]. Qed.

Lemma le_rfor {A S} (xs : list A) (body' body : A -> S -> res S) : (forall x s, le_res (body' x s) (body x s)) -> forall s, le_res (rfor xs body' s) (rfor xs body s).
Proof. intros H. induction xs as [|x xs IH]; intros s; cbn [rfor]; [apply le_refl|]. apply le_bind; [apply H|exact IH]. Qed.

Lemma le_rloop {S R} (step' step : S -> res (S + R)) : (forall s, le_res (step' s) (step s)) -> forall fuel s, le_res (rloop fuel step' s) (rloop fuel step s).
Proof.
  intros H. induction fuel as [|fuel IH]; intros s; cbn [rloop]; [apply le_refl|]. destruct (H s) as [-> | ->]; [|right; reflexivity].
  destruct (step s) as [[s'|r]| |]; cbn; try apply le_refl. apply IH.
Qed.

Lemma le_run {St Op Out} (step' step : St -> Op -> res (St * Out)) : (forall s o, le_res (step' s o) (step s o)) ->
  forall ops s, le_res (run step' s ops) (run step s ops).
Proof.
  intros H. induction ops as [|o ops IH]; intros s; cbn [run]; [apply le_refl|].
  apply le_bind; [apply H|]. intros [s' out]. apply le_bind; [apply IH|]. intros [s2 outs]. apply le_refl.
Qed.

Lemma le_fmap {A B} (f : A -> B) (x y : res A) : le_res x y -> le_res (f <$> x) (f <$> y).
Proof. intros [-> | ->]; [apply le_refl|right; reflexivity]. Qed.
