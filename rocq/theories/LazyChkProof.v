(** Over an operation, a mapping and a composition that compute or panic, the lazy segment tree does what it does over total ones or panics. *)
From Verif Require Import Prelude UtilModel ArraySpec SegtreeModel LazySpec LazyModel PartialOps SegtreeChkModel LazyChkModel.

Section Weaker.
  Context {S F : Type} (e : S) (op : S -> S -> S) (idm : F) (mapping : F -> S -> S) (comp : F -> F -> F).
  Context (opc : S -> S -> res S) (mappingc : F -> S -> res S) (compc : F -> F -> res F).
  Context (O : or_panics op opc) (OM : or_panics mapping mappingc) (OC : or_panics comp compc).

  Lemma le_ltc_update (s : tree S F) k : le_res (ltc_update opc s k) (lt_update op s k).
  Proof.
    destruct s as [d lz]. apply le_bind; [apply le_refl|]. intros a. apply le_bind; [apply le_refl|]. intros b.
    apply (le_opc op); [exact O|apply le_refl].
  Qed.

  Lemma le_all_apply size s k f : le_res (ltc_all_apply mappingc compc size s k f) (lt_all_apply mapping comp size s k f).
  Proof.
    destruct s as [d lz]. apply le_bind; [apply le_refl|]. intros x. apply (le_opc mapping); [exact OM|].
    apply le_bind; [apply le_refl|]. intros d'. destruct (k <? size); [|apply le_refl]. apply le_bind; [apply le_refl|]. intros g.
    apply (le_opc comp); [exact OC|apply le_refl].
  Qed.

  Lemma le_push size s k : le_res (ltc_push idm mappingc compc size s k) (lt_push idm mapping comp size s k).
  Proof.
    apply le_bind; [apply le_refl|]. intros f. apply le_bind; [apply le_all_apply|]. intros s1.
    apply le_bind; [apply le_refl|]. intros f1. apply le_bind; [apply le_all_apply|]. intros s2. apply le_refl.
  Qed.

  Lemma le_lt_from v : le_res (ltc_from e opc idm v) (lt_from e op idm v).
  Proof.
    unfold ltc_from, lt_from. apply le_bind; [apply le_refl|]. intros lg. apply le_bind; [apply le_refl|]. intros d.
    apply le_bind; [|intros; apply le_refl]. apply le_rfor. intros i s. apply le_ltc_update.
  Qed.

  Lemma le_push_path size log s p : le_res (ltc_push_path idm mappingc compc size log s p) (lt_push_path idm mapping comp size log s p).
  Proof. apply le_rfor. intros i s'. apply le_push. Qed.

  Lemma le_update_path log (s : tree S F) p : le_res (ltc_update_path opc log s p) (lt_update_path op log s p).
  Proof. apply le_rfor. intros i s'. apply le_ltc_update. Qed.

  Lemma le_lt_set t p x : le_res (ltc_set opc idm mappingc compc t p x) (lt_set op idm mapping comp t p x).
  Proof.
    apply le_bind; [apply le_refl|]. intros _. apply le_bind; [apply le_push_path|]. intros s. apply le_bind; [apply le_refl|]. intros d.
    apply le_bind; [apply le_update_path|]. intros s2. apply le_refl.
  Qed.

  Lemma le_lt_get t p : le_res (ltc_get idm mappingc compc t p) (lt_get idm mapping comp t p).
  Proof. apply le_bind; [apply le_refl|]. intros _. apply le_bind; [apply le_push_path|]. intros s. apply le_refl. Qed.

  Lemma le_lt_prod t l r : le_res (ltc_prod e opc idm mappingc compc t l r) (lt_prod e op idm mapping comp t l r).
  Proof.
    apply le_bind; [apply le_refl|]. intros _. destruct (l =? r); [apply le_refl|]. apply le_bind.
    - apply le_rfor. intros i s. apply le_bind.
      + destruct (straddled _ i); [apply le_push|apply le_refl].
      + intros s1. destruct (straddled _ i); [apply le_push|apply le_refl].
    - intros s. apply le_bind.
      + apply le_rloop. intros [[[l' r'] sml] smr]. unfold stc_prod_step, st_prod_step. destruct (l' <? r'); [|apply le_refl].
        apply le_bind.
        * destruct (Nat.odd l'); [|apply le_refl]. apply le_bind; [apply le_refl|]. intros x. apply (le_opc op); [exact O|apply le_refl].
        * intros [l1 s1]. apply le_bind; [|intros [r1 s2]; apply le_refl].
          destruct (Nat.odd r'); [|apply le_refl]. apply le_bind; [apply le_refl|]. intros r1. apply le_bind; [apply le_refl|]. intros x.
          apply (le_opc op); [exact O|apply le_refl].
      + intros [x y]. apply (le_opc op); [exact O|apply le_refl].
  Qed.

  Lemma le_lt_apply t p f : le_res (ltc_apply opc idm mappingc compc t p f) (lt_apply op idm mapping comp t p f).
  Proof.
    apply le_bind; [apply le_refl|]. intros _. apply le_bind; [apply le_push_path|]. intros s. apply le_bind; [apply le_refl|]. intros x.
    apply (le_opc mapping); [exact OM|]. apply le_bind; [apply le_refl|]. intros d. apply le_bind; [apply le_update_path|]. intros s2. apply le_refl.
  Qed.

  Lemma le_lt_apply_range t l r f : le_res (ltc_apply_range opc idm mappingc compc t l r f) (lt_apply_range op idm mapping comp t l r f).
  Proof.
    apply le_bind; [apply le_refl|]. intros _. destruct (l =? r); [apply le_refl|]. apply le_bind; [|intros s; apply le_bind; [|intros s1; apply le_bind; [|intros; apply le_refl]]].
    - apply le_rfor. intros i s. apply le_bind.
      + destruct (straddled _ i); [apply le_push|apply le_refl].
      + intros s1. destruct (straddled _ i); [|apply le_refl]. apply le_bind; [apply le_refl|]. intros q. apply le_push.
    - apply le_rloop. intros [[l' r'] s1]. unfold ltc_apply_step, lt_apply_step. destruct (l' <? r'); [|apply le_refl].
      apply le_bind.
      + destruct (Nat.odd l'); [|apply le_refl]. apply le_bind; [apply le_all_apply|intros; apply le_refl].
      + intros [l1 s2]. apply le_bind; [|intros [r1 s3]; apply le_refl].
        destruct (Nat.odd r'); [|apply le_refl]. apply le_bind; [apply le_refl|]. intros r1. apply le_bind; [apply le_all_apply|intros; apply le_refl].
    - apply le_rfor. intros i s2. apply le_bind.
      + destruct (straddled _ i); [apply le_ltc_update|apply le_refl].
      + intros s3. destruct (straddled _ i); [|apply le_refl]. apply le_bind; [apply le_refl|]. intros q. apply le_ltc_update.
  Qed.

  Lemma le_lt_max_right t l g : le_res (ltc_max_right e opc idm mappingc compc t l g) (lt_max_right e op idm mapping comp t l g).
  Proof.
    apply le_bind; [apply le_refl|]. intros _. apply le_bind; [apply le_refl|]. intros _. destruct (l =? lt_n t); [apply le_refl|].
    apply le_bind; [apply le_push_path|]. intros s. apply le_bind; [|intros [s1 r]; apply le_refl].
    apply le_rloop. intros [[s1 l1] sm]. unfold ltc_max_right_step, lt_max_right_step. apply le_bind; [apply le_refl|]. intros l2.
    apply le_bind; [apply le_refl|]. intros x. apply (le_opc op); [exact O|]. destruct (negb (g (op sm x))).
    - apply le_bind; [|intros; apply le_refl]. unfold ltc_descend_right, lt_descend_right. apply le_bind; [|intros [s2 l3]; apply le_refl].
      apply le_rloop. intros [[s2 l3] sm2]. destruct (l3 <? lt_size t); [|apply le_refl]. apply le_bind; [apply le_push|]. intros s3.
      apply le_bind; [apply le_refl|]. intros y. apply (le_opc op); [exact O|apply le_refl].
    - apply (le_opc op); [exact O|apply le_refl].
  Qed.

  Lemma le_lt_min_left t r g : le_res (ltc_min_left e opc idm mappingc compc t r g) (lt_min_left e op idm mapping comp t r g).
  Proof.
    apply le_bind; [apply le_refl|]. intros _. apply le_bind; [apply le_refl|]. intros _. destruct (r =? 0); [apply le_refl|].
    apply le_bind; [apply le_refl|]. intros q. apply le_bind; [apply le_push_path|]. intros s. apply le_bind; [|intros [s1 r1]; apply le_refl].
    apply le_rloop. intros [[s1 l1] sm]. unfold ltc_min_left_step, lt_min_left_step. apply le_bind; [apply le_refl|]. intros l2.
    apply le_bind; [apply le_refl|]. intros l3. apply le_bind; [apply le_refl|]. intros x. apply (le_opc op); [exact O|]. destruct (negb (g (op x sm))).
    - apply le_bind; [|intros; apply le_refl]. unfold ltc_descend_left, lt_descend_left. apply le_bind; [|intros [s2 l4]; apply le_refl].
      apply le_rloop. intros [[s2 l4] sm2]. destruct (l4 <? lt_size t); [|apply le_refl]. apply le_bind; [apply le_push|]. intros s3.
      apply le_bind; [apply le_refl|]. intros y. apply (le_opc op); [exact O|apply le_refl].
    - apply (le_opc op); [exact O|apply le_refl].
  Qed.

  Lemma le_lt_step t o : le_res (ltc_step e opc idm mappingc compc t o) (lt_step e op idm mapping comp t o).
  Proof.
    destruct o as [p x|p|l r| |p f|l r f|l g|r g]; cbn [ltc_step lt_step].
    - apply le_bind; [apply le_lt_set|intros; apply le_refl].
    - apply le_bind; [apply le_lt_get|intros [? ?]; apply le_refl].
    - apply le_bind; [apply le_lt_prod|intros [? ?]; apply le_refl].
    - apply le_refl.
    - apply le_bind; [apply le_lt_apply|intros; apply le_refl].
    - apply le_bind; [apply le_lt_apply_range|intros; apply le_refl].
    - apply le_bind; [apply le_lt_max_right|intros [? ?]; apply le_refl].
    - apply le_bind; [apply le_lt_min_left|intros [? ?]; apply le_refl].
  Qed.
End Weaker.
