(** Nobody catching the panics, the model with the memory left behind is the checked model. *)
From Verif Require Import Prelude UtilModel ArraySpec SegtreeModel SegtreeChkModel LazySpec LazyModel LazyChkModel Unwind LazyUnwindModel.

Lemma strip_loop {X B R St Fin} (enc : X -> B -> St) (fin : X -> R -> Fin) (step : B -> uw X (B + R)) (stepr : St -> res (St + Fin)) :
  (forall b s, stepr (enc s b) = ('(s, r) ← strip (step b s); Ok (match r with inl b => inl (enc s b) | inr r => inr (fin s r) end))) ->
  forall fuel b s, rloop fuel stepr (enc s b) = ('(s, r) ← strip (uloop fuel step b s); Ok (fin s r)).
Proof.
  intros H. induction fuel as [|fuel IH]; intros b s; [reflexivity|]. cbn [rloop uloop]. rewrite strip_bind, H.
  destruct (strip (step b s)) as [[s' [b'|r]]| |]; cbn [mbind res_bind]; [apply IH|reflexivity|reflexivity|reflexivity].
Qed.
Lemma strip_for1 {X A} (body : A -> uw X unit) (bodyr : A -> X -> res X) :
  (forall x s, strip (body x s) = (s ← bodyr x s; Ok (s, tt))) ->
  forall xs s, strip (ufor xs (fun x _ => body x) tt s) = (s ← rfor xs bodyr s; Ok (s, tt)).
Proof.
  intros H. induction xs as [|x xs IH]; intros s; [reflexivity|]. cbn [ufor rfor]. rewrite strip_bind, H.
  destruct (bodyr x s) as [s'| |]; cbn [mbind res_bind]; [apply IH|reflexivity|reflexivity].
Qed.

Section Code.
  Context {S F : Type} (e : S) (opc : S -> S -> res S) (idm : F) (mapc : F -> S -> res S) (compc : F -> F -> res F).
  Implicit Types (s : tree S F) (t : lazytree S F).

  Lemma strip_update k s : strip (ltu_update opc k s) = (s ← ltc_update opc s k; Ok (s, tt)).
  Proof. apply (strip_write (fun s => ltc_update opc s k)). Qed.

  Lemma strip_all_apply size k f s : strip (ltu_all_apply mapc compc size k f s) = (s ← ltc_all_apply mapc compc size s k f; Ok (s, tt)).
  Proof.
    unfold ltu_all_apply, ltc_all_apply. rewrite strip_bind, strip_write. destruct s as [d lz]. cbn [fst snd].
    destruct (vget d k) as [x| |]; cbn [mbind res_bind]; [|reflexivity|reflexivity].
    destruct (mapc f x) as [y| |]; cbn [mbind res_bind]; [|reflexivity|reflexivity].
    destruct (vset d k y) as [d'| |]; cbn [mbind res_bind]; [|reflexivity|reflexivity].
    destruct (k <? size); [|reflexivity]. rewrite strip_write. cbn [fst snd].
    destruct (vget lz k) as [g| |]; cbn [mbind res_bind]; [|reflexivity|reflexivity].
    destruct (compc f g) as [h| |]; cbn [mbind res_bind]; [|reflexivity|reflexivity].
    destruct (vset lz k h) as [d''| |]; reflexivity.
  Qed.

  Lemma strip_push size k s : strip (ltu_push idm mapc compc size k s) = (s ← ltc_push idm mapc compc size s k; Ok (s, tt)).
  Proof.
    unfold ltu_push, ltc_push. rewrite strip_bind, strip_read.
    destruct (vget s.2 k) as [f| |]; cbn [mbind res_bind]; [|reflexivity|reflexivity]. rewrite strip_bind, strip_all_apply.
    destruct (ltc_all_apply mapc compc size s (2 * k) f) as [s1| |]; cbn [mbind res_bind]; [|reflexivity|reflexivity]. rewrite strip_bind, strip_read.
    destruct (vget s1.2 k) as [f1| |]; cbn [mbind res_bind]; [|reflexivity|reflexivity]. rewrite strip_bind, strip_all_apply.
    destruct (ltc_all_apply mapc compc size s1 (2 * k + 1) f1) as [s2| |]; cbn [mbind res_bind]; [|reflexivity|reflexivity]. rewrite strip_write.
    destruct (vset s2.2 k idm); reflexivity.
  Qed.

  Lemma strip_push_path size log p s : strip (ltu_push_path idm mapc compc size log p s) = (s ← ltc_push_path idm mapc compc size log s p; Ok (s, tt)).
  Proof. unfold ltu_push_path, ltc_push_path. apply (strip_for1 (fun i => ltu_push idm mapc compc size (p / 2 ^ i))). intros i s'. apply strip_push. Qed.
  Lemma strip_update_path log p s : strip (ltu_update_path opc log p s) = (s ← ltc_update_path opc log s p; Ok (s, tt)).
  Proof. unfold ltu_update_path, ltc_update_path. apply (strip_for1 (fun i => ltu_update opc (p / 2 ^ i))). intros i s'. apply strip_update. Qed.

  Lemma strip_push_bounds size l r i s : strip (ltu_push_bounds idm mapc compc size l r i s) = (s ← ltc_push_bounds idm mapc compc size l r i s; Ok (s, tt)).
  Proof.
    unfold ltu_push_bounds, ltc_push_bounds. rewrite strip_bind. destruct (straddled l i).
    - rewrite strip_push. destruct (ltc_push idm mapc compc size s (l / 2 ^ i)) as [s1| |]; cbn [mbind res_bind]; [|reflexivity|reflexivity].
      destruct (straddled r i); [apply strip_push|reflexivity].
    - cbn [strip_ret]. rewrite strip_ret. cbn [mbind res_bind]. destruct (straddled r i); [apply strip_push|reflexivity].
  Qed.
  Lemma strip_push_bounds' size l r i s : strip (ltu_push_bounds' idm mapc compc size l r i s) = (s ← ltc_push_bounds' idm mapc compc size l r i s; Ok (s, tt)).
  Proof.
    assert (forall s, strip ((if straddled r i then q <~ uread (fun _ => nsub r 1) ;~ ltu_push idm mapc compc size (q / 2 ^ i) else uret tt) s) =
      (s ← (if straddled r i then q ← nsub r 1; ltc_push idm mapc compc size s (q / 2 ^ i) else Ok s); Ok (s, tt))) as H.
    { intros s1. destruct (straddled r i); [|reflexivity]. rewrite strip_bind, strip_read. destruct (nsub r 1); cbn [mbind res_bind]; [apply strip_push|reflexivity|reflexivity]. }
    unfold ltu_push_bounds', ltc_push_bounds'. rewrite strip_bind. destruct (straddled l i).
    - rewrite strip_push. destruct (ltc_push idm mapc compc size s (l / 2 ^ i)) as [s1| |]; cbn [mbind res_bind]; [apply H|reflexivity|reflexivity].
    - rewrite strip_ret. cbn [mbind res_bind]. apply H.
  Qed.
  Lemma strip_update_bounds l r i s : strip (ltu_update_bounds opc l r i s) = (s ← ltc_update_bounds opc l r i s; Ok (s, tt)).
  Proof.
    assert (forall s, strip ((if straddled r i then q <~ uread (fun _ => nsub r 1) ;~ ltu_update opc (q / 2 ^ i) else uret tt) s) =
      (s ← (if straddled r i then q ← nsub r 1; ltc_update opc s (q / 2 ^ i) else Ok s); Ok (s, tt))) as H.
    { intros s1. destruct (straddled r i); [|reflexivity]. rewrite strip_bind, strip_read. destruct (nsub r 1); cbn [mbind res_bind]; [apply strip_update|reflexivity|reflexivity]. }
    unfold ltu_update_bounds, ltc_update_bounds. rewrite strip_bind. destruct (straddled l i).
    - rewrite strip_update. destruct (ltc_update opc s (l / 2 ^ i)) as [s1| |]; cbn [mbind res_bind]; [apply H|reflexivity|reflexivity].
    - rewrite strip_ret. cbn [mbind res_bind]. apply H.
  Qed.

  Lemma strip_apply_step size f l r s : ltc_apply_step mapc compc size f (l, r, s) =
    ('(s, r) ← strip (ltu_apply_step mapc compc size f (l, r) s); Ok (match r with inl b => inl (b.1, b.2, s) | inr _ => inr s end)).
  Proof.
    unfold ltc_apply_step, ltu_apply_step. destruct (l <? r); [|reflexivity]. rewrite strip_bind.
    assert (forall l1 s1, ('(r, s) ← (if Nat.odd r then r ← nsub r 1; s ← ltc_all_apply mapc compc size s1 r f; Ok (r, s) else Ok (r, s1));
        Ok (inl (l1 / 2, r / 2, s))) =
      ('(s, r) ← strip (ubind (if Nat.odd r then r <~ uread (fun _ => nsub r 1) ;~ (ltu_all_apply mapc compc size r f ;;~ uret r) else uret r)
        (fun r => uret (@inl (nat * nat) unit (l1 / 2, r / 2))) s1);
       Ok (match r with inl b => inl (b.1, b.2, s) | inr _ => inr s end))) as H.
    { intros l1 s1. rewrite strip_bind. destruct (Nat.odd r); [|reflexivity]. rewrite strip_bind, strip_read.
      destruct (nsub r 1) as [r1| |]; cbn [mbind res_bind]; [|reflexivity|reflexivity]. rewrite strip_bind, strip_all_apply.
      destruct (ltc_all_apply mapc compc size s1 r1 f); reflexivity. }
    destruct (Nat.odd l).
    - rewrite strip_bind, strip_all_apply. destruct (ltc_all_apply mapc compc size s l f) as [s1| |]; cbn [mbind res_bind]; [|reflexivity|reflexivity].
      rewrite strip_ret. cbn [mbind res_bind]. apply H.
    - rewrite strip_ret. cbn [mbind res_bind]. apply H.
  Qed.
  Lemma strip_apply_loop size f fuel l r s : rloop fuel (ltc_apply_step mapc compc size f) (l, r, s) =
    ('(s, _) ← strip (uloop fuel (ltu_apply_step mapc compc size f) (l, r) s); Ok s).
  Proof.
    exact (strip_loop (fun s b => (b.1, b.2, s)) (fun s (_ : unit) => s) (ltu_apply_step mapc compc size f) (ltc_apply_step mapc compc size f)
      (fun b s => ltac:(destruct b; apply strip_apply_step)) fuel (l, r) s).
  Qed.

  Lemma strip_on_tree {A} (m : lazytree S F -> uw (tree S F) A) t :
    strip (on_tree m t) = ('(s, a) ← strip (m t (lt_d t, lt_lz t)); Ok (with_tree t s, a)).
  Proof. unfold on_tree, strip. destruct (m t (lt_d t, lt_lz t)) as [[s [a|]]| |]; reflexivity. Qed.
  Lemma strip_assert {A} (b : bool) (m : uw (tree S F) A) s : strip ((uread (fun _ => rassert b) ;;~ m) s) = (rassert b ;; strip (m s)).
  Proof. rewrite strip_bind, strip_read. destruct (rassert b); reflexivity. Qed.

  Lemma strip_descend_right size g l sm s :
    ltc_descend_right opc idm mapc compc size g s l sm =
    ('(s, r) ← strip ((l <~ uloop (size + 1) (ltu_descend_right_step opc idm mapc compc size g) (l, sm) ;~ (uread (fun _ => nsub l size))) s); Ok (s, r)).
  Proof.
    unfold ltc_descend_right.
    match goal with |- context [rloop ?n ?st _] =>
      pose proof (strip_loop (fun s b => (s, b.1, b.2)) (fun s (l : nat) => (s, l)) (ltu_descend_right_step opc idm mapc compc size g) st) as H end.
    cbn [fst snd] in H. specialize (fun X => H X (size + 1) (l, sm) s). cbn [fst snd] in H. rewrite H; clear H.
    - rewrite strip_bind. destruct (strip _) as [[s1 l1]| |]; cbn [mbind res_bind]; [|reflexivity|reflexivity]. rewrite strip_read.
      destruct (nsub l1 size); reflexivity.
    - intros [l1 sm1] s1. cbn [fst snd]. unfold ltu_descend_right_step. destruct (l1 <? size); [|reflexivity]. rewrite strip_bind, strip_push.
      destruct (ltc_push idm mapc compc size s1 l1) as [s2| |]; cbn [mbind res_bind]; [|reflexivity|reflexivity]. rewrite strip_bind, strip_read.
      destruct (vget s2.1 (2 * l1)) as [x| |]; cbn [mbind res_bind]; [|reflexivity|reflexivity].
      destruct (opc sm1 x) as [y| |]; cbn [mbind res_bind]; [|reflexivity|reflexivity]. destruct (g y); reflexivity.
  Qed.
  Lemma strip_descend_left size g r sm s :
    ltc_descend_left opc idm mapc compc size g s r sm =
    ('(s, r) ← strip ((r <~ uloop (size + 1) (ltu_descend_left_step opc idm mapc compc size g) (r, sm) ;~ (uread (fun _ => nsub (r + 1) size))) s); Ok (s, r)).
  Proof.
    unfold ltc_descend_left.
    match goal with |- context [rloop ?n ?st _] =>
      pose proof (strip_loop (fun s b => (s, b.1, b.2)) (fun s (l : nat) => (s, l)) (ltu_descend_left_step opc idm mapc compc size g) st) as H end.
    cbn [fst snd] in H. specialize (fun X => H X (size + 1) (r, sm) s). cbn [fst snd] in H. rewrite H; clear H.
    - rewrite strip_bind. destruct (strip _) as [[s1 l1]| |]; cbn [mbind res_bind]; [|reflexivity|reflexivity]. rewrite strip_read.
      destruct (nsub (l1 + 1) size); reflexivity.
    - intros [l1 sm1] s1. cbn [fst snd]. unfold ltu_descend_left_step. destruct (l1 <? size); [|reflexivity]. rewrite strip_bind, strip_push.
      destruct (ltc_push idm mapc compc size s1 l1) as [s2| |]; cbn [mbind res_bind]; [|reflexivity|reflexivity]. rewrite strip_bind, strip_read.
      destruct (vget s2.1 (2 * l1 + 1)) as [x| |]; cbn [mbind res_bind]; [|reflexivity|reflexivity].
      destruct (opc x sm1) as [y| |]; cbn [mbind res_bind]; [|reflexivity|reflexivity]. destruct (g y); [|reflexivity].
      rewrite strip_bind, strip_read. destruct (nsub (2 * l1 + 1) 1); reflexivity.
  Qed.

  Lemma strip_max_right_step n size g l sm s :
    ltc_max_right_step opc idm mapc compc n size g (s, l, sm) =
    ('(s, r) ← strip (ltu_max_right_step opc idm mapc compc n size g (l, sm) s); Ok (match r with inl b => inl (s, b.1, b.2) | inr r => inr (s, r) end)).
  Proof.
    unfold ltc_max_right_step, ltu_max_right_step. rewrite strip_bind, strip_read.
    destruct (strip_even l) as [l1| |]; cbn [mbind res_bind]; [|reflexivity|reflexivity]. rewrite strip_bind, strip_read.
    destruct (vget s.1 l1) as [x| |]; cbn [mbind res_bind]; [|reflexivity|reflexivity]. rewrite strip_bind, strip_read.
    destruct (opc sm x) as [y| |]; cbn [mbind res_bind]; [|reflexivity|reflexivity].
    destruct (negb (g y)).
    - rewrite strip_descend_right, !strip_bind. destruct (strip (uloop _ _ _ s)) as [[s1 l2]| |]; cbn [mbind res_bind]; [|reflexivity|reflexivity].
      rewrite strip_bind, strip_read. destruct (nsub l2 size); reflexivity.
    - rewrite strip_bind, strip_read. cbn [mbind res_bind]. destruct (lowbit (l1 + 1) =? l1 + 1); reflexivity.
  Qed.
  Lemma strip_min_left_step size g r sm s :
    ltc_min_left_step opc idm mapc compc size g (s, r, sm) =
    ('(s, r) ← strip (ltu_min_left_step opc idm mapc compc size g (r, sm) s); Ok (match r with inl b => inl (s, b.1, b.2) | inr r => inr (s, r) end)).
  Proof.
    unfold ltc_min_left_step, ltu_min_left_step. rewrite strip_bind, strip_read.
    destruct (nsub r 1) as [r0| |]; cbn [mbind res_bind]; [|reflexivity|reflexivity]. rewrite strip_bind, strip_read.
    destruct (strip_odd r0) as [l1| |]; cbn [mbind res_bind]; [|reflexivity|reflexivity]. rewrite strip_bind, strip_read.
    destruct (vget s.1 l1) as [x| |]; cbn [mbind res_bind]; [|reflexivity|reflexivity]. rewrite strip_bind, strip_read.
    destruct (opc x sm) as [y| |]; cbn [mbind res_bind]; [|reflexivity|reflexivity].
    destruct (negb (g y)).
    - rewrite strip_descend_left, !strip_bind. destruct (strip (uloop _ _ _ s)) as [[s1 l2]| |]; cbn [mbind res_bind]; [|reflexivity|reflexivity].
      rewrite strip_bind, strip_read. destruct (nsub (l2 + 1) size); reflexivity.
    - rewrite strip_bind, strip_read. cbn [mbind res_bind]. destruct (lowbit l1 =? l1); reflexivity.
  Qed.

  Lemma with_tree_same t : with_tree t (lt_d t, lt_lz t) = t.
  Proof. destruct t. reflexivity. Qed.

  Lemma step_strip t o : strip (ltu_step e opc idm mapc compc o t) = ltc_step e opc idm mapc compc t o.
  Proof.
    destruct o as [p x|p|l r| |p f|l r f|l g|r g]; cbn [ltu_step ltc_step]; rewrite strip_bind.
    - unfold ltu_set, ltc_set. rewrite strip_on_tree, strip_assert. destruct (rassert (p <? lt_n t)); cbn [mbind res_bind]; [|reflexivity|reflexivity].
      cbv zeta. rewrite strip_bind, strip_push_path. destruct (ltc_push_path _ _ _ _ _ _ _) as [s| |]; cbn [mbind res_bind]; [|reflexivity|reflexivity].
      rewrite strip_bind, strip_write. destruct (vset s.1 _ x) as [d| |]; cbn [mbind res_bind]; [|reflexivity|reflexivity]. rewrite strip_update_path.
      destruct (ltc_update_path _ _ _ _) as [s'| |]; reflexivity.
    - unfold ltu_get, ltc_get. rewrite strip_on_tree, strip_assert. destruct (rassert (p <? lt_n t)); cbn [mbind res_bind]; [|reflexivity|reflexivity].
      cbv zeta. rewrite strip_bind, strip_push_path. destruct (ltc_push_path _ _ _ _ _ _ _) as [s| |]; cbn [mbind res_bind]; [|reflexivity|reflexivity].
      rewrite strip_read. destruct (vget s.1 _) as [d| |]; reflexivity.
    - unfold ltu_prod, ltc_prod. rewrite strip_on_tree, strip_assert. destruct (rassert _); cbn [mbind res_bind]; [|reflexivity|reflexivity].
      destruct (l =? r); [rewrite strip_ret; cbn [mbind res_bind]; rewrite with_tree_same; reflexivity|]. cbv zeta.
      rewrite strip_bind, (strip_for1 (ltu_push_bounds idm mapc compc (lt_size t) (l + lt_size t) (r + lt_size t)) (ltc_push_bounds idm mapc compc (lt_size t) (l + lt_size t) (r + lt_size t)))
        by (intros; apply strip_push_bounds).
      destruct (rfor _ _ _) as [s| |]; cbn [mbind res_bind]; [|reflexivity|reflexivity]. rewrite strip_read.
      destruct (rloop _ _ _) as [[sml smr]| |]; cbn [mbind res_bind]; [|reflexivity|reflexivity]. destruct (opc sml smr); reflexivity.
    - rewrite strip_read. destruct (ltc_all_prod t); reflexivity.
    - unfold ltu_apply, ltc_apply. rewrite strip_on_tree, strip_assert. destruct (rassert (p <? lt_n t)); cbn [mbind res_bind]; [|reflexivity|reflexivity].
      cbv zeta. rewrite strip_bind, strip_push_path. destruct (ltc_push_path _ _ _ _ _ _ _) as [s| |]; cbn [mbind res_bind]; [|reflexivity|reflexivity].
      rewrite strip_bind, strip_write. destruct (vget s.1 _) as [x| |]; cbn [mbind res_bind]; [|reflexivity|reflexivity].
      destruct (mapc f x) as [y| |]; cbn [mbind res_bind]; [|reflexivity|reflexivity].
      destruct (vset s.1 _ y) as [d| |]; cbn [mbind res_bind]; [|reflexivity|reflexivity]. rewrite strip_update_path.
      destruct (ltc_update_path _ _ _ _) as [s'| |]; reflexivity.
    - unfold ltu_apply_range, ltc_apply_range. rewrite strip_on_tree, strip_assert. destruct (rassert _); cbn [mbind res_bind]; [|reflexivity|reflexivity].
      destruct (l =? r); [rewrite strip_ret; cbn [mbind res_bind]; rewrite with_tree_same; reflexivity|]. cbv zeta.
      rewrite strip_bind, (strip_for1 (ltu_push_bounds' idm mapc compc (lt_size t) (l + lt_size t) (r + lt_size t)) (ltc_push_bounds' idm mapc compc (lt_size t) (l + lt_size t) (r + lt_size t)))
        by (intros; apply strip_push_bounds').
      destruct (rfor (rev (range_incl 1 (lt_log t))) (ltc_push_bounds' idm mapc compc (lt_size t) (l + lt_size t) (r + lt_size t)) (lt_d t, lt_lz t)) as [s| |]; cbn [mbind res_bind]; [|reflexivity|reflexivity]. rewrite strip_bind, strip_apply_loop.
      destruct (strip (uloop _ _ _ _)) as [[s1 []]| |]; cbn [mbind res_bind]; [|reflexivity|reflexivity].
      rewrite (strip_for1 (ltu_update_bounds opc (l + lt_size t) (r + lt_size t)) (ltc_update_bounds opc (l + lt_size t) (r + lt_size t)))
        by (intros; apply strip_update_bounds).
      destruct (rfor (range_incl 1 (lt_log t)) (ltc_update_bounds opc (l + lt_size t) (r + lt_size t)) s1) as [s2| |]; reflexivity.
    - unfold ltu_max_right, ltc_max_right. rewrite strip_on_tree, strip_assert. destruct (rassert (l <=? lt_n t)); cbn [mbind res_bind]; [|reflexivity|reflexivity].
      rewrite strip_assert. destruct (rassert (g e)); cbn [mbind res_bind]; [|reflexivity|reflexivity].
      destruct (l =? lt_n t); [rewrite strip_ret; cbn [mbind res_bind]; rewrite with_tree_same; reflexivity|]. cbv zeta.
      rewrite strip_bind, strip_push_path. destruct (ltc_push_path _ _ _ _ _ _ _) as [s| |]; cbn [mbind res_bind]; [|reflexivity|reflexivity].
      pose proof (strip_loop (fun s b => (s, b.1, b.2)) (fun s (l : nat) => (s, l)) (ltu_max_right_step opc idm mapc compc (lt_n t) (lt_size t) g)
        (ltc_max_right_step opc idm mapc compc (lt_n t) (lt_size t) g) (fun b s => ltac:(destruct b; apply strip_max_right_step)) (2 * lt_size t + 1) (l + lt_size t, e) s) as H.
      cbn [fst snd] in H. rewrite H. clear H.
      destruct (strip (uloop _ _ _ _)) as [[s1 r]| |]; reflexivity.
    - unfold ltu_min_left, ltc_min_left. rewrite strip_on_tree, strip_assert. destruct (rassert (r <=? lt_n t)); cbn [mbind res_bind]; [|reflexivity|reflexivity].
      rewrite strip_assert. destruct (rassert (g e)); cbn [mbind res_bind]; [|reflexivity|reflexivity].
      destruct (r =? 0); [rewrite strip_ret; cbn [mbind res_bind]; rewrite with_tree_same; reflexivity|]. cbv zeta.
      rewrite strip_bind, strip_read. destruct (nsub (r + lt_size t) 1) as [q| |]; cbn [mbind res_bind]; [|reflexivity|reflexivity].
      rewrite strip_bind, strip_push_path. destruct (ltc_push_path _ _ _ _ _ _ _) as [s| |]; cbn [mbind res_bind]; [|reflexivity|reflexivity].
      pose proof (strip_loop (fun s b => (s, b.1, b.2)) (fun s (l : nat) => (s, l)) (ltu_min_left_step opc idm mapc compc (lt_size t) g)
        (ltc_min_left_step opc idm mapc compc (lt_size t) g) (fun b s => ltac:(destruct b; apply strip_min_left_step)) (2 * lt_size t + 1) (r + lt_size t, e) s) as H.
      cbn [fst snd] in H. rewrite H. clear H.
      destruct (strip (uloop _ _ _ _)) as [[s1 l]| |]; reflexivity.
  Qed.
End Code.
