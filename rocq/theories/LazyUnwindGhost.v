(** A lazy segment tree over words of candidates shadows the real one: the real node holds the product of one choice out of its
    word, the real pending map is the first of its pending maps. *)
From Verif Require Import Prelude UtilModel UtilProof ArraySpec PartialOps SegtreeModel SegtreeProof SegtreeChkModel LazySpec LazyModel LazyProof
  LazyChkModel Unwind LazyUnwindModel TreeUnwindSpec.

(** ** Products over choices *)
Lemma some_prod_app {S} (e : S) (op : S -> S -> S) (L : monoid_laws e op) w1 w2 v1 v2 :
  some_prod e op w1 v1 -> some_prod e op w2 v2 -> some_prod e op (w1 ++ w2) (op v1 v2).
Proof.
  intros (y1 & H1 & ->) (y2 & H2 & ->). exists (y1 ++ y2). split; [apply Forall2_app; assumption|]. symmetry. apply (mprod_app _ _ L).
Qed.
Lemma some_prod_nil {S} (e : S) (op : S -> S -> S) : some_prod e op [] e.
Proof. exists []. split; [constructor|reflexivity]. Qed.
Lemma some_prod_one {S} (e : S) (op : S -> S -> S) (L : monoid_laws e op) c v : v ∈ c -> some_prod e op [c] v.
Proof. intros H. exists [v]. split; [repeat constructor; exact H|]. symmetry. apply (mprod_single _ _ L). Qed.

Section Ghost.
  Context {S F : Type} (e : S) (op : S -> S -> S) (idm : F) (mapping : F -> S -> S) (comp : F -> F -> F).
  Context (L : monoid_laws e op) (ML : map_laws op idm mapping comp).
  Context (opc : S -> S -> res S) (O : or_panics op opc).
  Local Notation mapc := (fun f x => Ok (mapping f x)).
  Local Notation compc := (fun f g => Ok (comp f g)).

  (** ** The shadow: words of candidates, lists of maps *)
  Definition gmapc (G : list F) (c : list S) : list S := flat_map (fun g => map (mapping g) c) G.
  Definition gmap (G : list F) (w : list (list S)) : list (list S) := map (gmapc G) w.
  Definition gcomp (G H : list F) : list F := flat_map (fun g => map (comp g) H) G.

  Lemma glaws : monoid_laws (@nil (list S)) app.
  Proof. split; [intros; apply app_assoc|reflexivity|apply app_nil_r]. Qed.
  Lemma gmaplaws : map_laws app [idm] gmap gcomp.
  Proof.
    split.
    - intros w. unfold gmap. rewrite <- (map_id w) at 2. apply map_ext. intros c. unfold gmapc. cbn. rewrite app_nil_r.
      rewrite <- (map_id c) at 2. apply map_ext. intros x. apply (mpl_id _ _ _ _ ML).
    - intros G H w. unfold gmap. rewrite map_map. apply map_ext. intros c. unfold gmapc, gcomp.
      induction G as [|g G IH]; [reflexivity|]. cbn. rewrite flat_map_app, IH. f_equal.
      clear IH. induction H as [|h H IH]; [reflexivity|]. cbn. rewrite map_app, map_map, IH. f_equal.
      apply map_ext. intros x. apply (mpl_comp _ _ _ _ ML).
    - intros G w1 w2. apply map_app.
  Qed.

  Local Notation gtree := (tree (list (list S)) (list F)).
  Implicit Types (s : tree S F) (g : gtree) (size k : nat).

  (** ** The relation *)
  Definition rep (v : S) (w : list (list S)) : Prop := w <> [] /\ some_prod e op w v.
  Lemma rep_app v1 v2 w1 w2 : rep v1 w1 -> rep v2 w2 -> rep (op v1 v2) (w1 ++ w2).
  Proof. intros [H1 H2] [H3 H4]. split; [destruct w1; [contradiction|discriminate]|]. apply some_prod_app; assumption. Qed.
  Lemma mprod_map f ys : ys <> [] -> mapping f (mprod e op ys) = mprod e op (map (mapping f) ys).
  Proof.
    induction ys as [|y ys IH]; [contradiction|]. intros _. destruct ys as [|z ys].
    - cbn. rewrite !(ml_idr _ _ L). reflexivity.
    - change (mprod e op (y :: z :: ys)) with (op y (mprod e op (z :: ys))). rewrite (mpl_op _ _ _ _ ML), IH by discriminate. reflexivity.
  Qed.
  Lemma rep_map v w f G : f ∈ G -> rep v w -> rep (mapping f v) (gmap G w).
  Proof.
    intros Hf (Hw & ys & Hc & ->). split; [destruct w; [contradiction|discriminate]|].
    exists (map (mapping f) ys). split.
    - unfold choice, gmap. apply Forall2_fmap. eapply Forall2_impl; [exact Hc|]. intros c y Hy.
      unfold gmapc. apply elem_of_list_In, in_flat_map. exists f. split; [apply elem_of_list_In; exact Hf|].
      apply in_map. apply elem_of_list_In. exact Hy.
    - apply mprod_map. intros ->. apply Forall2_nil_inv_r in Hc. contradiction.
  Qed.

  Record Rel size s g : Prop := {
    re_d : length g.1 = length s.1;
    re_lz : Forall2 (fun f G => exists tl, G = f :: tl) s.2 g.2;
    re_rep : forall k v w, 0 < k -> s.1 !! k = Some v -> g.1 !! k = Some w -> rep v w;
    re_leaf : forall k v w, size <= k -> s.1 !! k = Some v -> g.1 !! k = Some w -> exists tl, w = [v :: tl] }.

  Lemma vget_some {A} (l : list A) i x : vget l i = Ok x -> l !! i = Some x.
  Proof. apply vget_ok_iff. Qed.
  Lemma vset_inv {A} (l : list A) i x l' : vset l i x = Ok l' -> i < length l /\ l' = <[i := x]> l.
  Proof. unfold vset. case_match; intros E; try discriminate; injection E as <-; (split; [|reflexivity]); try (apply Nat.ltb_lt; assumption); assumption. Qed.

  (** writing a node on both sides *)
  Lemma Rel_write size s g k v w : Rel size s g -> (0 < k -> rep v w) -> (size <= k -> exists tl, w = [v :: tl]) ->
    Rel size (<[k := v]> s.1, s.2) (<[k := w]> g.1, g.2).
  Proof.
    intros [H1 H2 H3 H4] Hr Hl. split; cbn [fst snd].
    - rewrite !insert_length. exact H1.
    - exact H2.
    - intros j v' w' Hj Ev Ew. destruct (decide (j = k)) as [->|Hne].
      + apply list_lookup_insert_Some in Ev as [(_ & <- & _)|(? & _)]; [|contradiction].
        apply list_lookup_insert_Some in Ew as [(_ & <- & _)|(? & _)]; [|contradiction]. auto.
      + rewrite list_lookup_insert_ne in Ev by congruence. rewrite list_lookup_insert_ne in Ew by congruence. eauto.
    - intros j v' w' Hj Ev Ew. destruct (decide (j = k)) as [->|Hne].
      + apply list_lookup_insert_Some in Ev as [(_ & <- & _)|(? & _)]; [|contradiction].
        apply list_lookup_insert_Some in Ew as [(_ & <- & _)|(? & _)]; [|contradiction]. auto.
      + rewrite list_lookup_insert_ne in Ev by congruence. rewrite list_lookup_insert_ne in Ew by congruence. eauto.
  Qed.
  Lemma Rel_write_lz size s g k f tl : Rel size s g -> Rel size (s.1, <[k := f]> s.2) (g.1, <[k := f :: tl]> g.2).
  Proof. intros [H1 H2 H3 H4]. split; cbn [fst snd]; auto. apply Forall2_insert; [exact H2|eauto]. Qed.

  Lemma Rel_read size s g k w : Rel size s g -> vget g.1 k = Ok w -> exists v, vget s.1 k = Ok v /\ s.1 !! k = Some v /\ g.1 !! k = Some w.
  Proof.
    intros HR E. apply vget_some in E. destruct (lookup_lt_is_Some_2 s.1 k) as [v Ev].
    { rewrite <- (re_d _ _ _ HR). apply lookup_lt_Some in E. exact E. }
    exists v. split; [apply vget_ok_iff; exact Ev|]. auto.
  Qed.
  Lemma Rel_read_lz size s g k G : Rel size s g -> vget g.2 k = Ok G -> exists f tl, vget s.2 k = Ok f /\ G = f :: tl.
  Proof.
    intros HR E. apply vget_some in E. destruct (Forall2_lookup_r _ _ _ _ _ (re_lz _ _ _ HR) E) as (f & Ef & tl & ->).
    exists f, tl. split; [apply vget_ok_iff; exact Ef|reflexivity].
  Qed.

  (** ** Parts of the code that do not call the operation never unwind *)
  Definition simT size (u : uw (tree S F) unit) (c : gtree -> res gtree) : Prop :=
    forall s g g', Rel size s g -> c g = Ok g' -> exists s', u s = Ok (s', Some tt) /\ Rel size s' g'.

  Lemma simT_ret size : simT size (uret tt) (fun g => Ok g).
  Proof. intros s g g' HR E. injection E as <-. exists s. auto. Qed.
  Lemma simT_bind size u1 c1 u2 c2 : simT size u1 c1 -> simT size u2 c2 -> simT size (u1 ;;~ u2) (fun g => g ← c1 g; c2 g).
  Proof.
    intros H1 H2 s g g' HR E. destruct (c1 g) as [g1| |] eqn:E1; cbn in E; [|discriminate|discriminate].
    destruct (H1 s g g1 HR E1) as (s1 & Es & HR1). destruct (H2 s1 g1 g' HR1 E) as (s2 & Es2 & HR2).
    exists s2. split; [|exact HR2]. rewrite (ubind_ok _ _ _ _ _ Es). exact Es2.
  Qed.
  Lemma simT_for {A} size (xs : list A) u c : (forall x, simT size (u x) (c x)) -> simT size (ufor xs (fun x _ => u x) tt) (rfor xs c).
  Proof.
    intros H. induction xs as [|x xs IH]; [apply simT_ret|]. intros s g g' HR E. cbn [rfor ufor] in *.
    destruct (c x g) as [g1| |] eqn:E1; cbn in E; [|discriminate|discriminate].
    destruct (H x s g g1 HR E1) as (s1 & Es & HR1). destruct (IH s1 g1 g' HR1 E) as (s2 & Es2 & HR2).
    exists s2. split; [|exact HR2]. rewrite (ubind_ok _ _ _ _ _ Es). exact Es2.
  Qed.
  Lemma simT_ext size u c c' : simT size u c -> (forall g, c' g = c g) -> simT size u c'.
  Proof. intros H He s g g' HR E. rewrite He in E. eauto. Qed.

  Lemma simT_all_apply size k f tl : simT size (ltu_all_apply mapc compc size k f) (fun g => lt_all_apply gmap gcomp size g k (f :: tl)).
  Proof.
    intros s g g' HR E. destruct g as [gd glz]. cbn [lt_all_apply] in E.
    destruct (vget gd k) as [w| |] eqn:Ew; cbn [mbind res_bind] in E; [|discriminate|discriminate].
    destruct (Rel_read size s (gd, glz) k w HR Ew) as (v & Ev & Ev' & Ew').
    destruct (vset gd k (gmap (f :: tl) w)) as [gd'| |] eqn:Eset; cbn [mbind res_bind] in E; [|discriminate|discriminate].
    apply vset_inv in Eset as [Hk ->].
    assert (Rel size (<[k := mapping f v]> s.1, s.2) (<[k := gmap (f :: tl) w]> gd, glz)) as HR1.
    { apply (Rel_write size s (gd, glz)); [exact HR| |].
      - intros H0. apply rep_map; [left|]. apply (re_rep _ _ _ HR k); assumption.
      - intros Hs. destruct (re_leaf _ _ _ HR k v w Hs Ev' Ew') as [c ->]. cbn. eauto. }
    pose proof (re_d _ _ _ HR) as Hd. cbn [fst] in Hd.
    unfold ltu_all_apply.
    assert (vset s.1 k (mapping f v) = Ok (<[k := mapping f v]> s.1)) as Es by (apply vset_ok; lia).
    rewrite (ubind_ok _ _ s (<[k := mapping f v]> s.1, s.2) tt).
    2:{ apply uwrite_ok. rewrite Ev. cbn [mbind res_bind]. rewrite Es. reflexivity. }
    destruct (k <? size).
    - destruct (vget glz k) as [G| |] eqn:EG; cbn [mbind res_bind] in E; [|discriminate|discriminate].
      destruct (Rel_read_lz size s (gd, glz) k G HR EG) as (h & tl' & Eh & ->).
      destruct (vset glz k (gcomp (f :: tl) (h :: tl'))) as [glz'| |] eqn:Eset; cbn [mbind res_bind] in E; [|discriminate|discriminate].
      apply vset_inv in Eset as [Hk2 ->]. injection E as <-.
      exists (<[k := mapping f v]> s.1, <[k := comp f h]> s.2). split.
      + apply uwrite_ok. cbn [fst snd]. rewrite Eh. cbn [mbind res_bind]. rewrite vset_ok; [reflexivity|].
        apply vget_some in Eh. apply lookup_lt_Some in Eh. exact Eh.
      + cbn. apply (Rel_write_lz size _ _ k (comp f h) _ HR1).
    - injection E as <-. eexists. split; [reflexivity|exact HR1].
  Qed.

  Lemma simT_push size k : simT size (ltu_push idm mapc compc size k) (fun g => lt_push [idm] gmap gcomp size g k).
  Proof.
    intros s g g' HR E. unfold lt_push in E.
    destruct (vget g.2 k) as [G| |] eqn:EG; cbn [mbind res_bind] in E; [|discriminate|discriminate].
    destruct (Rel_read_lz size s g k G HR EG) as (f & tl & Ef & ->).
    destruct (lt_all_apply gmap gcomp size g (2 * k) (f :: tl)) as [g1| |] eqn:E1; cbn [mbind res_bind] in E; [|discriminate|discriminate].
    destruct (simT_all_apply size (2 * k) f tl s g g1 HR E1) as (s1 & Es1 & HR1).
    destruct (vget g1.2 k) as [G1| |] eqn:EG1; cbn [mbind res_bind] in E; [|discriminate|discriminate].
    destruct (Rel_read_lz size s1 g1 k G1 HR1 EG1) as (f1 & tl1 & Ef1 & ->).
    destruct (lt_all_apply gmap gcomp size g1 (2 * k + 1) (f1 :: tl1)) as [g2| |] eqn:E2; cbn [mbind res_bind] in E; [|discriminate|discriminate].
    destruct (simT_all_apply size (2 * k + 1) f1 tl1 s1 g1 g2 HR1 E2) as (s2 & Es2 & HR2).
    destruct (vset g2.2 k [idm]) as [lz| |] eqn:E3; cbn [mbind res_bind] in E; [|discriminate|discriminate].
    apply vset_inv in E3 as [Hk ->]. injection E as <-.
    exists (s2.1, <[k := idm]> s2.2). split; [|apply Rel_write_lz; exact HR2].
    unfold ltu_push. rewrite (ubind_ok _ _ s s f) by (apply uread_ok; exact Ef). rewrite (ubind_ok _ _ _ _ _ Es1).
    rewrite (ubind_ok _ _ s1 s1 f1) by (apply uread_ok; exact Ef1). rewrite (ubind_ok _ _ _ _ _ Es2).
    apply uwrite_ok. rewrite vset_ok; [reflexivity|]. rewrite (Forall2_length _ _ _ (re_lz _ _ _ HR2)). exact Hk.
  Qed.

  Lemma simT_push_path size log p : simT size (ltu_push_path idm mapc compc size log p) (fun g => lt_push_path [idm] gmap gcomp size log g p).
  Proof. apply (simT_for size _ (fun i => ltu_push idm mapc compc size (p / 2 ^ i)) (fun i g => lt_push [idm] gmap gcomp size g (p / 2 ^ i))). intros i. apply simT_push. Qed.

  Lemma simT_push_bounds size l r i : simT size (ltu_push_bounds idm mapc compc size l r i) (lt_push_bounds [idm] gmap gcomp size l r i).
  Proof.
    eapply simT_ext; [apply (simT_bind size _ (fun g => if straddled l i then lt_push [idm] gmap gcomp size g (l / 2 ^ i) else Ok g)
      _ (fun g => if straddled r i then lt_push [idm] gmap gcomp size g (r / 2 ^ i) else Ok g))|reflexivity];
      (destruct (straddled _ i); [apply simT_push|apply simT_ret]).
  Qed.
  Lemma simT_push_bounds' size l r i : simT size (ltu_push_bounds' idm mapc compc size l r i) (lt_push_bounds' [idm] gmap gcomp size l r i).
  Proof.
    eapply simT_ext; [apply (simT_bind size _ (fun g => if straddled l i then lt_push [idm] gmap gcomp size g (l / 2 ^ i) else Ok g)
      _ (fun g => if straddled r i then q ← nsub r 1; lt_push [idm] gmap gcomp size g (q / 2 ^ i) else Ok g))|reflexivity].
    - destruct (straddled l i); [apply simT_push|apply simT_ret].
    - destruct (straddled r i); [|apply simT_ret]. intros s g g' HR E. destruct (nsub r 1) as [q| |] eqn:Eq; cbn [mbind res_bind] in E; [|discriminate|discriminate].
      destruct (simT_push size (q / 2 ^ i) s g g' HR E) as (s' & Es & HR'). exists s'. split; [|exact HR'].
      rewrite (ubind_ok _ _ s s q) by (apply uread_ok; reflexivity). exact Es.
  Qed.

  Lemma simT_apply_loop size f tl fuel : forall l r s g g', Rel size s g ->
    rloop fuel (lt_apply_step gmap gcomp size (f :: tl)) (l, r, g) = Ok g' ->
    exists s', uloop fuel (ltu_apply_step mapc compc size f) (l, r) s = Ok (s', Some tt) /\ Rel size s' g'.
  Proof.
    induction fuel as [|fuel IH]; intros l r s g g' HR E; [discriminate|]. cbn [rloop uloop] in *.
    set (rec := rloop fuel (lt_apply_step gmap gcomp size (f :: tl))) in *. set (recu := uloop fuel (ltu_apply_step mapc compc size f)) in *.
    unfold lt_apply_step in E. unfold ltu_apply_step. fold rec in E. destruct (l <? r).
    2:{ cbn in E. injection E as <-. exists s. split; [reflexivity|exact HR]. }
    assert (forall (l1 : nat) s g, Rel size s g ->
      ('(r, g) ← (if Nat.odd r then r ← nsub r 1; g ← lt_all_apply gmap gcomp size g r (f :: tl); Ok (r, g) else Ok (r, g));
       rec (l1 / 2, r / 2, g)) = Ok g' ->
      exists s', ubind (ubind (if Nat.odd r then r <~ uread (fun _ => nsub r 1) ;~ (ltu_all_apply mapc compc size r f ;;~ uret r) else uret r)
          (fun r => uret (inl (l1 / 2, r / 2))))
        (fun b => match b with inl b => recu b | inr x => uret x end) s = Ok (s', Some tt) /\ Rel size s' g') as H.
    { clear s g HR E. intros l1 s g HR E. destruct (Nat.odd r).
      - destruct (nsub r 1) as [r1| |]; cbn [mbind res_bind] in E; [|discriminate|discriminate].
        destruct (lt_all_apply gmap gcomp size g r1 (f :: tl)) as [g1| |] eqn:E1; cbn [mbind res_bind] in E; [|discriminate|discriminate].
        destruct (simT_all_apply size r1 f tl s g g1 HR E1) as (s1 & Es1 & HR1).
        destruct (IH _ _ s1 g1 g' HR1 E) as (s2 & Es2 & HR2). exists s2. split; [|exact HR2].
        rewrite (ubind_ok _ _ s s1 (inl (l1 / 2, r1 / 2))); [exact Es2|].
        rewrite (ubind_ok _ _ s s1 r1); [reflexivity|]. rewrite (ubind_ok _ _ s s r1) by (apply uread_ok; reflexivity).
        rewrite (ubind_ok _ _ _ _ _ Es1). reflexivity.
      - cbn [mbind res_bind] in E. destruct (IH _ _ s g g' HR E) as (s2 & Es2 & HR2). exists s2. split; [exact Es2|exact HR2]. }
    destruct (Nat.odd l).
    - destruct (lt_all_apply gmap gcomp size g l (f :: tl)) as [g1| |] eqn:E1; cbn [mbind res_bind] in E; [|discriminate|discriminate].
      destruct (simT_all_apply size l f tl s g g1 HR E1) as (s1 & Es1 & HR1).
      destruct (H (l + 1) s1 g1 HR1) as (s2 & Es2 & HR2).
      { rewrite <- E. destruct (if Nat.odd r then _ else _) as [[r1 g2]| |]; reflexivity. }
      exists s2. split; [|exact HR2]. rewrite <- Es2. unfold ubind. rewrite Es1. reflexivity.
    - cbn [mbind res_bind] in E. destruct (H l s g HR) as (s2 & Es2 & HR2).
      { rewrite <- E. destruct (if Nat.odd r then _ else _) as [[r1 g2]| |]; reflexivity. }
      exists s2. split; [|exact HR2]. rewrite <- Es2. reflexivity.
  Qed.
End Ghost.
