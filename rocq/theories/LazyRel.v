(** The lazy segment tree on related functions: related histories give related answers. *)
From Verif Require Import Prelude UtilModel ArraySpec SegtreeModel LazySpec LazyModel RelProof.

Section Rel.
  Context {S F S2 F2 : Type}.
  Context (e : S) (op : S -> S -> S) (idm : F) (mapping : F -> S -> S) (comp : F -> F -> F).
  Context (e2 : S2) (op2 : S2 -> S2 -> S2) (idm2 : F2) (mapping2 : F2 -> S2 -> S2) (comp2 : F2 -> F2 -> F2).
  (* RS relates the values in the trees, RA the values put together from them, which may also be the identity. *)
  Context (RS RA : S -> S2 -> Prop) (RF : F -> F2 -> Prop).
  Context (Hop : forall x y x2 y2, RS x x2 -> RS y y2 -> RS (op x y) (op2 x2 y2)).
  Context (He : RA e e2) (HopA : forall x y x2 y2, RA x x2 -> RA y y2 -> RA (op x y) (op2 x2 y2)) (HSA : forall x x2, RS x x2 -> RA x x2).
  Context (Hid : RF idm idm2) (Hmap : forall f x f2 x2, RF f f2 -> RS x x2 -> RS (mapping f x) (mapping2 f2 x2)).
  Context (Hcomp : forall f g f2 g2, RF f f2 -> RF g g2 -> RF (comp f g) (comp2 f2 g2)).

  Definition tree_rel (s : tree S F) (s2 : tree S2 F2) : Prop := Forall2 RS s.1 s2.1 /\ Forall2 RF s.2 s2.2.
  Definition lazy_rel (t : lazytree S F) (t2 : lazytree S2 F2) : Prop :=
    lt_n t <= lt_n t2 /\ lt_size t = lt_size t2 /\ lt_log t = lt_log t2 /\ tree_rel (lt_d t, lt_lz t) (lt_d t2, lt_lz t2).

  Lemma update_rel s s2 k : tree_rel s s2 -> rel tree_rel (lt_update op s k) (lt_update op2 s2 k).
  Proof.
    destruct s as [d lz], s2 as [d2 lz2]. intros [Hd Hl]. cbn in Hd, Hl. unfold lt_update.
    eapply rel_bind; [apply rel_vget; exact Hd|]. intros a a2 Ha. eapply rel_bind; [apply rel_vget; exact Hd|]. intros b b2 Hb.
    eapply rel_bind; [apply rel_vset; [exact Hd|apply Hop; eassumption]|]. intros d' d2' Hd'. split; assumption.
  Qed.
  Lemma all_apply_rel size s s2 k f f2 : tree_rel s s2 -> RF f f2 -> rel tree_rel (lt_all_apply mapping comp size s k f) (lt_all_apply mapping2 comp2 size s2 k f2).
  Proof.
    destruct s as [d lz], s2 as [d2 lz2]. intros [Hd Hl] Hf. cbn in Hd, Hl. unfold lt_all_apply.
    eapply rel_bind; [apply rel_vget; exact Hd|]. intros a a2 Ha. eapply rel_bind; [apply rel_vset; [exact Hd|apply Hmap; eassumption]|]. intros d' d2' Hd'.
    destruct (k <? size); [|split; assumption].
    eapply rel_bind; [apply rel_vget; exact Hl|]. intros g g2 Hg. eapply rel_bind; [apply rel_vset; [exact Hl|apply Hcomp; eassumption]|]. intros l' l2' Hl'. split; assumption.
  Qed.
  Lemma push_rel size s s2 k : tree_rel s s2 -> rel tree_rel (lt_push idm mapping comp size s k) (lt_push idm2 mapping2 comp2 size s2 k).
  Proof.
    intros Hs. unfold lt_push. eapply rel_bind; [apply rel_vget; apply Hs|]. intros f f2 Hf.
    eapply rel_bind; [apply all_apply_rel; eassumption|]. intros s' s2' Hs'.
    eapply rel_bind; [apply rel_vget; apply Hs'|]. intros g g2 Hg.
    eapply rel_bind; [apply all_apply_rel; eassumption|]. intros s'' s2'' Hs''.
    eapply rel_bind; [apply rel_vset; [apply Hs''|exact Hid]|]. intros l l2 Hl. split; [apply Hs''|exact Hl].
  Qed.
  Lemma copy_rel d d2 off v v2 : Forall2 RS d d2 -> Forall2 RS v v2 -> rel (Forall2 RS) (copy_into d off v) (copy_into d2 off v2).
  Proof.
    intros Hd Hv. unfold copy_into. rewrite (Forall2_length _ _ _ Hd), (Forall2_length _ _ _ Hv). destruct (_ <=? _); [|exact I].
    apply Forall2_app; [apply Forall2_take; exact Hd|]. apply Forall2_app; [exact Hv|]. apply Forall2_drop. exact Hd.
  Qed.
  Lemma replicate_rel {A B} (R : A -> B -> Prop) n x y : R x y -> Forall2 R (replicate n x) (replicate n y).
  Proof. intros H. induction n; constructor; assumption. Qed.
  Lemma build_rel d d2 n : Forall2 RS d d2 ->
    rel tree_rel (rfor (rev (range 1 n)) (fun i s => lt_update op s i) (d, replicate n idm))
      (rfor (rev (range 1 n)) (fun i s => lt_update op2 s i) (d2, replicate n idm2)).
  Proof.
    intros Hd. apply (rel_for tree_rel); [intros i s s2 Hs; apply update_rel; exact Hs|]. split; [exact Hd|apply replicate_rel; exact Hid].
  Qed.
  Lemma push_path_rel size log s s2 p : tree_rel s s2 -> rel tree_rel (lt_push_path idm mapping comp size log s p) (lt_push_path idm2 mapping2 comp2 size log s2 p).
  Proof. intros Hs. unfold lt_push_path. apply (rel_for tree_rel); [|exact Hs]. intros i x x2 Hx. apply push_rel. exact Hx. Qed.
  Lemma update_path_rel log s s2 p : tree_rel s s2 -> rel tree_rel (lt_update_path op log s p) (lt_update_path op2 log s2 p).
  Proof. intros Hs. unfold lt_update_path. apply (rel_for tree_rel); [|exact Hs]. intros i x x2 Hx. apply update_rel. exact Hx. Qed.
  Lemma with_rel t t2 s s2 : lazy_rel t t2 -> tree_rel s s2 -> lazy_rel (with_tree t s) (with_tree t2 s2).
  Proof. intros (H1 & H2 & H3 & _) Hs. split; [exact H1|]. split; [exact H2|]. split; [exact H3|]. destruct s, s2. exact Hs. Qed.

  Lemma set_rel t t2 p x x2 : lazy_rel t t2 -> RS x x2 -> p < lt_n t -> rel lazy_rel (lt_set op idm mapping comp t p x) (lt_set op2 idm2 mapping2 comp2 t2 p x2).
  Proof.
    intros Ht Hx Hlt. pose proof Ht as (En & Es & El & Hs). unfold lt_set. rewrite Es, El. destruct (Nat.ltb_spec p (lt_n t)); [|lia]. destruct (Nat.ltb_spec p (lt_n t2)); [|lia]. cbn [rassert mbind res_bind].
    eapply rel_bind; [apply push_path_rel; exact Hs|]. intros s s2 Hs'. eapply rel_bind; [apply rel_vset; [apply Hs'|exact Hx]|]. intros d d2 Hd.
    eapply rel_bind; [apply update_path_rel; split; [exact Hd|apply Hs']|]. intros s'' s2'' Hs''. apply with_rel; assumption.
  Qed.
  Definition ans_rel {A A2} (R : A -> A2 -> Prop) (x : lazytree S F * A) (x2 : lazytree S2 F2 * A2) : Prop := lazy_rel x.1 x2.1 /\ R x.2 x2.2.
  Lemma get_rel t t2 p : lazy_rel t t2 -> p < lt_n t -> rel (ans_rel RS) (lt_get idm mapping comp t p) (lt_get idm2 mapping2 comp2 t2 p).
  Proof.
    intros Ht Hlt. pose proof Ht as (En & Es & El & Hs). unfold lt_get. rewrite Es, El. destruct (Nat.ltb_spec p (lt_n t)); [|lia]. destruct (Nat.ltb_spec p (lt_n t2)); [|lia]. cbn [rassert mbind res_bind].
    eapply rel_bind; [apply push_path_rel; exact Hs|]. intros s s2 Hs'. eapply rel_bind; [apply rel_vget; apply Hs'|]. intros x x2 Hx.
    split; [apply with_rel; assumption|exact Hx].
  Qed.
  Lemma apply_rel t t2 p f f2 : lazy_rel t t2 -> RF f f2 -> p < lt_n t -> rel lazy_rel (lt_apply op idm mapping comp t p f) (lt_apply op2 idm2 mapping2 comp2 t2 p f2).
  Proof.
    intros Ht Hf Hlt. pose proof Ht as (En & Es & El & Hs). unfold lt_apply. rewrite Es, El. destruct (Nat.ltb_spec p (lt_n t)); [|lia]. destruct (Nat.ltb_spec p (lt_n t2)); [|lia]. cbn [rassert mbind res_bind].
    eapply rel_bind; [apply push_path_rel; exact Hs|]. intros s s2 Hs'. eapply rel_bind; [apply rel_vget; apply Hs'|]. intros x x2 Hx.
    eapply rel_bind; [apply rel_vset; [apply Hs'|apply Hmap; eassumption]|]. intros d d2 Hd.
    eapply rel_bind; [apply update_path_rel; split; [exact Hd|apply Hs']|]. intros s'' s2'' Hs''. apply with_rel; assumption.
  Qed.
  Lemma prod_step_rel d d2 : Forall2 RS d d2 -> forall s s2,
    (s.1.1 = s2.1.1 /\ RA s.1.2 s2.1.2 /\ RA s.2 s2.2) ->
    rel (sum_rel (fun s s2 => s.1.1 = s2.1.1 /\ RA s.1.2 s2.1.2 /\ RA s.2 s2.2) (fun y y2 => RA y.1 y2.1 /\ RA y.2 y2.2)) (st_prod_step op d s) (st_prod_step op2 d2 s2).
  Proof.
    intros Hd [[[l r] a] b] [[[l2 r2] a2] b2] ([= <- <-] & Ha & Hb). cbn in Ha, Hb. unfold st_prod_step. destruct (l <? r); [|split; assumption].
    apply (rel_bind (fun x x2 => x.1 = x2.1 /\ RA x.2 x2.2)).
    { destruct (Nat.odd l); [|split; auto]. eapply rel_bind; [apply rel_vget; exact Hd|]. intros x x2 Hx. split; [reflexivity|apply HopA; auto]. }
    intros [l' c] [l2' c2] [El Hc]. cbn in El, Hc. subst l2'.
    apply (rel_bind (fun x x2 => x.1 = x2.1 /\ RA x.2 x2.2)).
    { destruct (Nat.odd r); [|split; auto]. apply rel_same. intros r'. eapply rel_bind; [apply rel_vget; exact Hd|]. intros x x2 Hx. split; [reflexivity|apply HopA; auto]. }
    intros [r' c'] [r2' c2'] [Er Hc']. cbn in Er, Hc'. subst r2'. cbn. auto.
  Qed.
  Lemma cond_rel (b : bool) s s2 (m : res (tree S F)) (m2 : res (tree S2 F2)) : tree_rel s s2 -> rel tree_rel m m2 -> rel tree_rel (if b then m else Ok s) (if b then m2 else Ok s2).
  Proof. destruct b; auto. Qed.
  Lemma prod_rel t t2 l r : lazy_rel t t2 -> l <= r <= lt_n t -> rel (ans_rel RA) (lt_prod e op idm mapping comp t l r) (lt_prod e2 op2 idm2 mapping2 comp2 t2 l r).
  Proof.
    intros Ht Hlt. pose proof Ht as (En & Es & El & Hs). unfold lt_prod. rewrite Es, El. destruct (Nat.leb_spec l r); [|lia]. destruct (Nat.leb_spec r (lt_n t)); [|lia]. destruct (Nat.leb_spec r (lt_n t2)); [|lia]. cbn [andb rassert mbind res_bind].
    destruct (l =? r); [split; assumption|]. eapply rel_bind.
    { apply (rel_for tree_rel); [|exact Hs]. intros i s s2 Hi. unfold lt_push_bounds. eapply rel_bind; [apply cond_rel; [exact Hi|apply push_rel; exact Hi]|].
      intros s' s2' Hi'. apply cond_rel; [exact Hi'|apply push_rel; exact Hi']. }
    intros s s2 Hs'. eapply rel_bind.
    { eapply rel_loop; [apply prod_step_rel; apply Hs'|]. cbn. auto. }
    intros [a b] [a2 b2] [Ha Hb]. split; [apply with_rel; assumption|apply HopA; assumption].
  Qed.
  Lemma all_prod_rel t t2 : lazy_rel t t2 -> rel RS (lt_all_prod t) (lt_all_prod t2).
  Proof. intros (_ & _ & _ & Hs). apply rel_vget. apply Hs. Qed.
  Lemma apply_range_rel t t2 l r f f2 : lazy_rel t t2 -> RF f f2 -> l <= r <= lt_n t -> rel lazy_rel (lt_apply_range op idm mapping comp t l r f) (lt_apply_range op2 idm2 mapping2 comp2 t2 l r f2).
  Proof.
    intros Ht Hf Hlt. pose proof Ht as (En & Es & El & Hs). unfold lt_apply_range. rewrite Es, El. destruct (Nat.leb_spec l r); [|lia]. destruct (Nat.leb_spec r (lt_n t)); [|lia]. destruct (Nat.leb_spec r (lt_n t2)); [|lia]. cbn [andb rassert mbind res_bind].
    destruct (l =? r); [exact Ht|]. eapply rel_bind.
    { apply (rel_for tree_rel); [|exact Hs]. intros i s s2 Hi. unfold lt_push_bounds'. eapply rel_bind; [apply cond_rel; [exact Hi|apply push_rel; exact Hi]|].
      intros s' s2' Hi'. apply cond_rel; [exact Hi'|]. apply rel_same. intros q. apply push_rel; exact Hi'. }
    intros s s2 Hs'. eapply rel_bind.
    { eapply (rel_loop (fun x x2 => x.1 = x2.1 /\ tree_rel x.2 x2.2) tree_rel); [|split; [reflexivity|exact Hs']].
      intros [[l' r'] x] [[l2' r2'] x2] [[= <- <-] Hx]. cbn in Hx. unfold lt_apply_step. destruct (l' <? r'); [|exact Hx].
      apply (rel_bind (fun x x2 => x.1 = x2.1 /\ tree_rel x.2 x2.2)).
      { destruct (Nat.odd l'); [|split; auto]. eapply rel_bind; [apply all_apply_rel; eassumption|]. intros y y2 Hy. split; auto. }
      intros [l'' y] [l2'' y2] [E2 Hy]. cbn in E2, Hy. subst l2''.
      apply (rel_bind (fun x x2 => x.1 = x2.1 /\ tree_rel x.2 x2.2)).
      { destruct (Nat.odd r'); [|split; auto]. apply rel_same. intros q. eapply rel_bind; [apply all_apply_rel; eassumption|]. intros z z2 Hz. split; auto. }
      intros [r'' z] [r2'' z2] [E3 Hz]. cbn in E3, Hz. subst r2''. cbn. auto. }
    intros s' s2' Hs''. eapply rel_bind.
    { apply (rel_for tree_rel); [|exact Hs'']. intros i x x2 Hi. unfold lt_update_bounds. eapply rel_bind; [apply cond_rel; [exact Hi|apply update_rel; exact Hi]|].
      intros y y2 Hi'. apply cond_rel; [exact Hi'|]. apply rel_same. intros q. apply update_rel; exact Hi'. }
    intros y y2 Hy. apply with_rel; assumption.
  Qed.
End Rel.
