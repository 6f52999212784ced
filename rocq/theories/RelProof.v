(** Two runs of the same program on related data. *)
From Verif Require Import Prelude.

Definition rel {A B} (R : A -> B -> Prop) (m : res A) (m2 : res B) : Prop :=
  match m, m2 with Ok a, Ok b => R a b | Panic, Panic => True | Diverge, Diverge => True | _, _ => False end.

Lemma rel_ok_r {A B} (R : A -> B -> Prop) m b : rel R m (Ok b) -> exists a, m = Ok a /\ R a b.
Proof. destruct m as [a| |]; cbn; [eauto|contradiction..]. Qed.
Lemma rel_bind {A B A2 B2} (R : A -> A2 -> Prop) (Q : B -> B2 -> Prop) m m2 (f : A -> res B) (f2 : A2 -> res B2) :
  rel R m m2 -> (forall a b, R a b -> rel Q (f a) (f2 b)) -> rel Q (m ≫= f) (m2 ≫= f2).
Proof. destruct m, m2; cbn; intros H Hf; try contradiction; auto. Qed.
Lemma rel_mono {A B} (R Q : A -> B -> Prop) m m2 : rel R m m2 -> (forall a b, R a b -> Q a b) -> rel Q m m2.
Proof. destruct m, m2; cbn; auto. Qed.
Lemma rel_eq {A} (m : res A) : rel eq m m.
Proof. destruct m; cbn; auto. Qed.
Lemma rel_same {A B C} (Q : B -> C -> Prop) (m : res A) (f : A -> res B) (f2 : A -> res C) : (forall a, rel Q (f a) (f2 a)) -> rel Q (m ≫= f) (m ≫= f2).
Proof. intros H. apply (rel_bind eq); [apply rel_eq|]. intros a b ->. apply H. Qed.
Lemma rel_vget {A B} (R : A -> B -> Prop) l l2 i : Forall2 R l l2 -> rel R (vget l i) (vget l2 i).
Proof.
  intros H. unfold vget. destruct (l !! i) as [x|] eqn:E.
  - destruct (Forall2_lookup_l _ _ _ _ _ H E) as (y & -> & Hy). exact Hy.
  - apply lookup_ge_None_1 in E. rewrite (Forall2_length _ _ _ H) in E. rewrite lookup_ge_None_2 by exact E. exact I.
Qed.
Lemma rel_vset {A B} (R : A -> B -> Prop) l l2 i x y : Forall2 R l l2 -> R x y -> rel (Forall2 R) (vset l i x) (vset l2 i y).
Proof.
  intros H Hx. unfold vset. rewrite (Forall2_length _ _ _ H). case_decide; [|exact I]. apply Forall2_insert; assumption.
Qed.
Lemma rel_for {A S S2} (R : S -> S2 -> Prop) (xs : list A) (f : A -> S -> res S) (f2 : A -> S2 -> res S2) :
  (forall x s s2, R s s2 -> rel R (f x s) (f2 x s2)) -> forall s s2, R s s2 -> rel R (rfor xs f s) (rfor xs f2 s2).
Proof.
  intros Hf. induction xs as [|x xs IH]; intros s s2 Hs; cbn [rfor]; [exact Hs|]. eapply rel_bind; [apply Hf; exact Hs|]. exact IH.
Qed.
Definition sum_rel {S S2 T T2} (R : S -> S2 -> Prop) (Q : T -> T2 -> Prop) (x : S + T) (y : S2 + T2) : Prop :=
  match x, y with inl a, inl b => R a b | inr a, inr b => Q a b | _, _ => False end.
Lemma rel_loop {S S2 T T2} (R : S -> S2 -> Prop) (Q : T -> T2 -> Prop) (f : S -> res (S + T)) (f2 : S2 -> res (S2 + T2)) :
  (forall s s2, R s s2 -> rel (sum_rel R Q) (f s) (f2 s2)) -> forall fuel s s2, R s s2 -> rel Q (rloop fuel f s) (rloop fuel f2 s2).
Proof.
  intros Hf. induction fuel as [|fuel IH]; intros s s2 Hs; cbn [rloop]; [exact I|]. eapply rel_bind; [apply Hf; exact Hs|].
  intros [a|a] [b|b] H; try contradiction; [apply IH; exact H|exact H].
Qed.
