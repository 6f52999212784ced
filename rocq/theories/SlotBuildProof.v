From Verif Require Import Prelude IntModel AhoSpec AhoModel AhoProps RingModel RingProof RoomModel RoomProof SlotModel SlotProof.

(** If m ends well, so does k, and the results are related. *)
Definition under {A B} (R : B -> A -> Prop) (m : res A) (k : res B) : Prop := forall a, m = Ok a -> exists b, k = Ok b /\ R b a.
Lemma under_bind {A B C D} (R : B -> A -> Prop) (Q : D -> C -> Prop) m k f h : under R m k -> (forall a b, R b a -> under Q (f a) (h b)) -> under Q (m ≫= f) (k ≫= h).
Proof. intros H1 H2 c E. destruct m as [a| |]; cbn in E; [|discriminate|discriminate]. destruct (H1 a eq_refl) as (b & -> & Hb). exact (H2 a b Hb c E). Qed.
Lemma under_same {A C D} (Q : D -> C -> Prop) (m : res A) f h : (forall a, under Q (f a) (h a)) -> under Q (m ≫= f) (m ≫= h).
Proof. intros H. destruct m as [a| |]; cbn; [apply H|intros c E; discriminate|intros c E; discriminate]. Qed.
Lemma under_ok {A B} (R : B -> A -> Prop) a b : R b a -> under R (Ok a) (Ok b).
Proof. intros H c [= <-]. eauto. Qed.
Lemma under_for {X S S'} (R : S' -> S -> Prop) (xs : list X) f h : (forall x s s', R s' s -> under R (f x s) (h x s')) -> forall s s', R s' s -> under R (rfor xs f s) (rfor xs h s').
Proof. intros H. induction xs as [|x xs IH]; intros s s' HR; cbn [rfor]; [apply under_ok; exact HR|]. eapply under_bind; [apply H; exact HR|]. intros a b Hab. apply IH. exact Hab. Qed.
Lemma under_loop {S S' T} (R : S' -> S -> Prop) (f : S -> res (S + T)) h : (forall s s', R s' s -> under (rel_sum R) (f s) (h s')) -> forall k s s', R s' s -> under eq (rloop k f s) (rloop k h s').
Proof.
  intros H. induction k as [|k IH]; intros s s' HR; cbn [rloop]; [intros a E; discriminate|]. eapply under_bind; [apply H; exact HR|]. intros [a|a] [b|b] Hab; cbn in Hab; [apply IH; exact Hab|destruct Hab|destruct Hab|apply under_ok; exact Hab].
Qed.
Section build.
  Context (N c k : nat) (Hc : Nat.max 4 (2 * (k - 1)) <= c).
  Definition small (r : ring nat) (q : list nat) : Prop := holds r q /\ rg_cap r <= c.
  Definition smalls (s : list node * ring nat) (s' : list node * list nat) : Prop := s.1 = s'.1 /\ small s.2 s'.2.
  Lemma under_push r q v : small r q -> under small (push_room k q v) (push_slot c r v).
  Proof.
    intros [H C] q' E. destruct (decide (length q < k)) as [L|L]; [|rewrite push_room_full in E by lia; discriminate]. rewrite push_room_ok in E by exact L. injection E as <-.
    destruct (push_slot_ok c k r q v H C L Hc) as (r' & E' & H' & C'). exists r'. split; [exact E'|]. split; assumption.
  Qed.
  Lemma under_build fuel a a' : build_room N k fuel a = Ok a' -> build_slot N c fuel a = Ok a'.
  Proof.
    intros E. assert (under eq (build_room N k fuel a) (build_slot N c fuel a)) as U; [|destruct (U a' E) as (b & -> & ->); reflexivity]. clear E. unfold build_room, build_slot. eapply (under_bind small).
    - apply under_for; [|split; [exact new_holds|cbn; lia]]. intros i q r H. apply under_same. intros x. apply under_same. intros v. destruct (negb (v =? 0)); [|apply under_ok; exact H]. apply under_push. exact H.
    - intros q r H. eapply under_bind; [apply (under_loop smalls); [|split; [reflexivity|exact H]]|intros x y ->; apply under_ok; reflexivity].
      clear H q r. intros [h' q] [h r] [E [H C]]. cbn [fst snd] in E, H, C. subst h'. unfold build_step_slot, build_step_room. destruct (pop_ok r q H) as (r' & -> & H' & _ & C'). cbn [mbind res_bind]. destruct q as [|u q]; cbn [head tail] in *; [apply under_ok; reflexivity|].
      eapply under_bind; [apply (under_for smalls); [|split; [reflexivity|split; [exact H'|cbn [snd]; lia]]]|intros x y Hxy; apply under_ok; exact Hxy].
      clear H C H' C' r r' q h. intros i [h' q] [h r] [E H]. cbn [fst snd] in E, H. subst h'. unfold build_edge_slot, build_edge_room. do 4 (apply under_same; intros ?). destruct (_ =? 0).
      + do 2 (apply under_same; intros ?). apply under_ok. split; [reflexivity|exact H].
      + do 5 (apply under_same; intros ?). eapply under_bind; [apply under_push; exact H|]. intros q1 r1 H1. apply under_ok. split; [reflexivity|exact H1].
  Qed.
End build.
