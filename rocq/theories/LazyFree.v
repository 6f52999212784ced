(** The lazy segment tree over functions without laws, followed on a tree over related functions that have them. *)
From Verif Require Import Prelude UtilModel UtilProof ArraySpec SegtreeModel SegtreeProof LazySpec LazyModel LazyProof LazyTop RelProof LazyRel FreeSpec.

(** The fields that no call changes. *)
Section Same.
  Context {S F : Type} (e : S) (op : S -> S -> S) (idm : F) (mapping : F -> S -> S) (comp : F -> F -> F).
  Definition same (t t' : lazytree S F) : Prop := lt_n t' = lt_n t /\ lt_size t' = lt_size t.
  Lemma same_with t s : same t (with_tree t s). Proof. split; reflexivity. Qed.
  Lemma same_refl t : same t t. Proof. split; reflexivity. Qed.
  Lemma bind_same {A} t (m : res A) f t' : (forall x t', f x = Ok t' -> same t t') -> (m ≫= f) = Ok t' -> same t t'.
  Proof. intros H E. apply rbind_ok_inv in E as (x & _ & E). eapply H. exact E. Qed.
  Lemma bind_same_pair {A B} t (m : res A) (f : A -> res (lazytree S F * B)) t' b : (forall x t' b, f x = Ok (t', b) -> same t t') -> (m ≫= f) = Ok (t', b) -> same t t'.
  Proof. intros H E. apply rbind_ok_inv in E as (x & _ & E). eapply H. exact E. Qed.
  Local Ltac go := repeat (first [apply bind_same; intros ? ? | apply bind_same_pair; intros ? ? ? | case_match]); intros E; injection E as <-; try intros <-; first [apply same_with|apply same_refl].
  Lemma set_same t p x t' : lt_set op idm mapping comp t p x = Ok t' -> same t t'.
  Proof. unfold lt_set. go. Qed.
  Lemma apply_same t p f t' : lt_apply op idm mapping comp t p f = Ok t' -> same t t'.
  Proof. unfold lt_apply. go. Qed.
  Lemma apply_range_same t l r f t' : lt_apply_range op idm mapping comp t l r f = Ok t' -> same t t'.
  Proof. unfold lt_apply_range. go. Qed.
  Lemma get_same t p t' x : lt_get idm mapping comp t p = Ok (t', x) -> same t t'.
  Proof. unfold lt_get. go. Qed.
  Lemma prod_same t l r t' x : lt_prod e op idm mapping comp t l r = Ok (t', x) -> same t t'.
  Proof. unfold lt_prod. go. Qed.
End Same.

Section Search.
  Context {S F S2 F2 : Type}.
  Context (e : S) (op : S -> S -> S) (idm : F) (mapping : F -> S -> S) (comp : F -> F -> F).
  Context (e2 : S2) (op2 : S2 -> S2 -> S2) (idm2 : F2) (mapping2 : F2 -> S2 -> S2) (comp2 : F2 -> F2 -> F2).
  Context (RS RA : S -> S2 -> Prop) (RF : F -> F2 -> Prop).
  Context (He : RA e e2) (HopA : forall x y x2 y2, RA x x2 -> RA y y2 -> RA (op x y) (op2 x2 y2)) (HSA : forall x x2, RS x x2 -> RA x x2).
  Context (Hid : RF idm idm2) (Hmap : forall f x f2 x2, RF f f2 -> RS x x2 -> RS (mapping f x) (mapping2 f2 x2)).
  Context (Hcomp : forall f g f2 g2, RF f f2 -> RF g g2 -> RF (comp f g) (comp2 f2 g2)).
  Context (L : monoid_laws e2 op2) (ML : map_laws op2 idm2 mapping2 comp2).
  Local Notation Rm log s A C := (R e2 op2 idm2 mapping2 log s A all C).
  Local Notation Pm := (Pr e2 op2).
  Local Notation T := (tree_rel RS RF).

  Lemma read_rel log s s2 A C h k : T s s2 -> Rm log s2 A C -> node log h k -> (forall j x, node log j x -> anc h k j x -> C j x) ->
    exists x, vget s.1 k = Ok x /\ RA x (Pm A (k * 2 ^ h) ((k + 1) * 2 ^ h)).
  Proof.
    intros HT HR Hn Ha. pose proof (rel_vget RS s.1 s2.1 k (proj1 HT)) as H.
    rewrite (R_read e2 op2 idm2 mapping2 log s2 A all C h k HR Hn I Ha) in H. destruct (vget s.1 k) as [x| |]; cbn in H; [|contradiction..]. eauto.
  Qed.
  Lemma push_down_rel log s s2 A C h k : T s s2 -> Rm log s2 A C -> node log (Datatypes.S h) k -> (forall j x, node log j x -> anc (Datatypes.S h) k j x -> C j x) ->
    exists s' s2' C', lt_push idm mapping comp (2 ^ log) s k = Ok s' /\ T s' s2' /\ Rm log s2' A C' /\
      (forall c, c = 2 * k \/ c = 2 * k + 1 -> forall j x, node log j x -> anc h c j x -> C' j x).
  Proof.
    intros HT HR Hn Ha. destruct (R_push_down e2 op2 idm2 mapping2 comp2 L ML log s2 A C h k HR Hn Ha) as (s2' & C' & E & HR' & Ha').
    pose proof (push_rel idm mapping comp idm2 mapping2 comp2 RS RF Hid Hmap Hcomp (2 ^ log) s s2 k HT) as H. rewrite E in H.
    destruct (lt_push idm mapping comp (2 ^ log) s k) as [s'| |]; cbn in H; [|contradiction..]. exists s', s2', C'. auto.
  Qed.

  Definition good g A l r : Prop := exists x, RA x (Pm A l r) /\ g x = true.
  Definition bad g A l r : Prop := exists x, RA x (Pm A l r) /\ g x = false.

  Lemma descend_right_any log s s2 A C g l h sm l0 : T s s2 -> Rm log s2 A C -> node log h l ->
    (forall j x, node log j x -> anc h l j x -> C j x) -> l0 <= l * 2 ^ h ->
    RA sm (Pm A l0 (l * 2 ^ h)) -> g sm = true -> bad g A l0 ((l + 1) * 2 ^ h) ->
    exists s' s2' r C', lt_descend_right op idm mapping comp (2 ^ log) g s l sm = Ok (s', r) /\ T s' s2' /\ Rm log s2' A C' /\
      l0 <= 2 ^ log + r < 2 * 2 ^ log /\ good g A l0 (2 ^ log + r) /\ bad g A l0 (2 ^ log + r + 1).
  Proof.
    intros HT HR Hn Ha Hl0 Hsm Ht Hf. unfold lt_descend_right.
    match goal with |- context [rloop _ ?st _] => set (step := st) end.
    destruct (rloop_inv_idx
      (fun h '(s, l, sm) => exists s2 C, T s s2 /\ Rm log s2 A C /\ node log h l /\ (forall j x, node log j x -> anc h l j x -> C j x) /\
         l0 <= l * 2 ^ h /\ RA sm (Pm A l0 (l * 2 ^ h)) /\ g sm = true /\ bad g A l0 ((l + 1) * 2 ^ h))
      (fun '(s, l) => exists s2 C, T s s2 /\ Rm log s2 A C /\ leaf log l /\ l0 <= l /\ good g A l0 l /\ bad g A l0 (l + 1))
      step) with (fuel := 2 ^ log + 1) (m := h) (s := (s, l, sm)) as ([s' l'] & E & s2' & C' & HT' & HR' & Hl' & H1 & H2 & H3).
    - clear s s2 C l h sm HT HR Hn Ha Hl0 Hsm Ht Hf.
      intros h [[s l] sm] (s2 & C & HT & HR & Hn & Ha & Hl0 & Hsm & Ht & Hf). unfold step.
      destruct h as [|h].
      + assert (~ l < 2 ^ log) by (intros H; apply (node_inner _ _ _ Hn) in H; lia).
        destruct (Nat.ltb_spec l (2 ^ log)); [lia|]. eexists. split; [reflexivity|]. cbn.
        rewrite Nat.pow_0_r, !Nat.mul_1_r in *. exists s2, C. split; [exact HT|]. split; [exact HR|].
        pose proof (node_lt _ _ _ Hn). split; [unfold leaf; lia|]. split; [exact Hl0|]. split; [|exact Hf]. exists sm. auto.
      + assert (l < 2 ^ log) as Hls by (apply (node_inner _ _ _ Hn); lia).
        destruct (Nat.ltb_spec l (2 ^ log)); [|lia].
        destruct (push_down_rel log s s2 A C h l HT HR Hn Ha) as (s1 & s3 & C1 & -> & HT1 & HR1 & Ha1). cbn [mbind res_bind].
        destruct (read_rel log s1 s3 A C1 h (2 * l) HT1 HR1 (node_left _ _ _ Hn) (Ha1 _ (or_introl eq_refl))) as (x & -> & Hx). cbn [mbind res_bind].
        pose proof (pow2_pos h) as Hph. rewrite Nat.pow_succ_r' in *.
        replace (l * (2 * 2 ^ h)) with (2 * l * 2 ^ h) in * by lia.
        replace ((l + 1) * (2 * 2 ^ h)) with ((2 * l + 2) * 2 ^ h) in * by lia.
        pose proof (HopA _ _ _ _ Hsm Hx) as Hy. rewrite <- (Pr_app e2 op2 L) in Hy by nia.
        destruct (g (op sm x)) eqn:Hg; (eexists; split; [reflexivity|]; cbn; exists h; split; [lia|]; exists s3, C1; split; [exact HT1|]; split; [exact HR1|]).
        * split; [apply node_right; exact Hn|]. split; [apply Ha1; auto|]. split; [nia|]. split; [exact Hy|].
          split; [exact Hg|]. replace (2 * l + 1 + 1) with (2 * l + 2) by lia. exact Hf.
        * split; [apply node_left; exact Hn|]. split; [apply Ha1; auto|]. split; [nia|]. split; [exact Hsm|].
          split; [exact Ht|]. exists (op sm x). auto.
    - exists s2, C. auto 10.
    - apply height_lt. apply Hn.
    - rewrite E. cbn [mbind res_bind]. unfold leaf in Hl'. rewrite nsub_ok by lia. cbn [mbind res_bind].
      exists s', s2', (l' - 2 ^ log), C'. split; [reflexivity|]. split; [exact HT'|]. split; [exact HR'|].
      replace (2 ^ log + (l' - 2 ^ log)) with l' by lia. split; [lia|]. auto.
  Qed.

  Lemma max_right_any_loop log s s2 A n g l0 : T s s2 -> Rm log s2 A (on_path l0) -> leaf log l0 -> g e = true ->
    exists s' s2' r C', rloop (2 * 2 ^ log + 1) (lt_max_right_step op idm mapping comp n (2 ^ log) g) (s, l0, e) = Ok (s', r) /\ T s' s2' /\ Rm log s2' A C' /\
      ((r = n /\ good g A l0 (2 * 2 ^ log)) \/
       (l0 <= 2 ^ log + r < 2 * 2 ^ log /\ good g A l0 (2 ^ log + r) /\ bad g A l0 (2 ^ log + r + 1))).
  Proof.
    intros HT HR Hl0 Hge.
    destruct (rloop_inv_idx
      (fun m '(s', l, sm) => s' = s /\ exists h, m + l * 2 ^ h = 2 * 2 ^ log /\ l * 2 ^ h < 2 * 2 ^ log /\
          l0 <= l * 2 ^ h /\ (l0 = l * 2 ^ h \/ (Nat.even l = true /\ (l - 2) * 2 ^ h <= l0)) /\
          RA sm (Pm A l0 (l * 2 ^ h)) /\ g sm = true)
      (fun '(s', r) => exists s2' C', T s' s2' /\ Rm log s2' A C' /\
        ((r = n /\ good g A l0 (2 * 2 ^ log)) \/
         (l0 <= 2 ^ log + r < 2 * 2 ^ log /\ good g A l0 (2 ^ log + r) /\ bad g A l0 (2 ^ log + r + 1))))
      (lt_max_right_step op idm mapping comp n (2 ^ log) g)) with (fuel := 2 * 2 ^ log + 1) (m := 2 * 2 ^ log - l0) (s := (s, l0, e))
      as ([s' r] & E & s2' & C' & H); [|split; [reflexivity|]; exists 0; rewrite Nat.pow_0_r, Nat.mul_1_r|lia|].
    2:{ unfold leaf in Hl0. split; [lia|]. split; [lia|]. split; [lia|]. split; [auto|].
        rewrite Pr_nil by lia. auto. }
    2:{ exists s', s2', r, C'. auto. }
    intros m [[s' l] sm] (-> & h & H1 & H2 & H3 & H4 & Hsm & H5). unfold lt_max_right_step.
    unfold leaf in Hl0. pose proof (pow2_pos log) as Hsz.
    assert (0 < l) as Hl by nia.
    destruct (strip_even_spec l Hl) as (k & l' & -> & Hll & Hodd). cbn [mbind res_bind].
    assert (Hpar : (l' - 1) * 2 ^ (k + h) <= l0).
    { rewrite Nat.pow_add_r. destruct H4 as [->|[Hev H4]]; [subst l; nia|].
      destruct k as [|k].
      { rewrite Nat.pow_0_r, Nat.mul_1_r in Hll. subst l'. rewrite <- Nat.negb_even, Hev in Hodd. discriminate. }
      rewrite Nat.pow_succ_r' in *. pose proof (pow2_pos k).
      transitivity ((l - 2) * 2 ^ h); [|exact H4].
      rewrite Nat.mul_assoc. apply Nat.mul_le_mono_r. subst l. nia. }
    assert (l * 2 ^ h = l' * 2 ^ (k + h)) as E by (rewrite Nat.pow_add_r; nia).
    rewrite E in *. clear E H4. generalize dependent (k + h). clear k h l Hl Hll.
    intros h H1 H2 H3 Hsm Hpar. pose proof (pow2_pos h) as Hph.
    assert (0 < l') as Hl' by nia.
    assert (Hh : h <= log).
    { apply Nat.lt_succ_r. apply (Nat.pow_lt_mono_r_iff 2); [lia|]. rewrite Nat.pow_succ_r'. nia. }
    assert (Hn : node log h l') by (split; [exact Hh|lia]).
    assert (Ha : forall j x, node log j x -> anc h l' j x -> on_path l0 j x).
    { intros j x Hx [Hj ->]. split; [lia|]. symmetry. apply under.
      destruct (anc_range h l' j Hj) as [A1 A2].
      apply Nat.odd_spec in Hodd as [q ->]. replace ((2 * q + 1) / 2) with q in * by (apply (Nat.div_unique _ _ _ 1); lia).
      replace (2 * q + 1 - 1) with (2 * q) in * by lia. nia. }
    destruct (read_rel log s s2 A _ h l' HT HR Hn Ha) as (x & -> & Hx). cbn [mbind res_bind].
    pose proof (node_hi _ _ _ Hn) as Hhi.
    pose proof (HopA _ _ _ _ Hsm Hx) as Hy. rewrite <- (Pr_app e2 op2 L) in Hy by nia.
    destruct (g (op sm x)) eqn:Hg; cbn [negb].
    - destruct (Nat.eqb_spec (lowbit (l' + 1)) (l' + 1)) as [Hp|Hnp].
      + eexists. split; [reflexivity|]. cbn. exists s2, (on_path l0). split; [exact HT|]. split; [exact HR|]. left. split; [reflexivity|].
        destruct (lowbit_eq_pow2 (l' + 1)) as [j Hj]; [lia|exact Hp|].
        assert ((l' + 1) * 2 ^ h = 2 * 2 ^ log) as E; [|rewrite <- E; eexists; split; [exact Hy|exact Hg]].
        assert (2 ^ log < (l' + 1) * 2 ^ h) as Hgt by nia.
        rewrite Hj in *. rewrite <- Nat.pow_add_r in *.
        assert (log < j + h) as G1 by (apply (Nat.pow_lt_mono_r_iff 2); [lia|exact Hgt]).
        assert (j + h <= Datatypes.S log) as G2 by (apply (Nat.pow_le_mono_r_iff 2); [lia|]; rewrite Nat.pow_succ_r'; lia).
        replace (j + h) with (Datatypes.S log) by lia. rewrite Nat.pow_succ_r'. reflexivity.
      + eexists. split; [reflexivity|]. cbn.
        assert ((l' + 1) * 2 ^ h <> 2 * 2 ^ log) as Hne2.
        { intros E. apply Hnp. rewrite (size_split log h Hh), Nat.mul_assoc in E.
          apply Nat.mul_cancel_r in E; [|lia]. rewrite E, <- Nat.pow_succ_r'. apply lowbit_pow2. }
        exists (2 * 2 ^ log - (l' + 1) * 2 ^ h). split; [nia|]. split; [reflexivity|].
        exists h. split; [nia|]. split; [nia|]. split; [nia|].
        split; [right; split; [rewrite Nat.add_1_r, Nat.even_succ; exact Hodd|]|].
        { replace (l' + 1 - 2) with (l' - 1) by lia. exact Hpar. }
        split; [exact Hy|exact Hg].
    - destruct (descend_right_any log s s2 A _ g l' h _ l0 HT HR Hn Ha H3 Hsm H5) as (s' & s2' & r & C' & -> & HT' & HR' & Hpost); [eexists; split; [exact Hy|exact Hg]|].
      cbn [mbind res_bind]. eexists. split; [reflexivity|]. cbn. exists s2', C'. split; [exact HT'|]. split; [exact HR'|]. right. exact Hpost.
  Qed.

  Lemma descend_left_any log s s2 A C g r h sm r0 : T s s2 -> Rm log s2 A C -> node log h r ->
    (forall j x, node log j x -> anc h r j x -> C j x) -> (r + 1) * 2 ^ h <= r0 ->
    RA sm (Pm A ((r + 1) * 2 ^ h) r0) -> g sm = true -> bad g A (r * 2 ^ h) r0 ->
    exists s' s2' l C', lt_descend_left op idm mapping comp (2 ^ log) g s r sm = Ok (s', l) /\ T s' s2' /\ Rm log s2' A C' /\
      0 < l /\ 2 ^ log + l <= r0 /\ good g A (2 ^ log + l) r0 /\ bad g A (2 ^ log + l - 1) r0.
  Proof.
    intros HT HR Hn Ha Hr0 Hsm Ht Hf. unfold lt_descend_left.
    match goal with |- context [rloop _ ?st _] => set (step := st) end.
    destruct (rloop_inv_idx
      (fun h '(s, r, sm) => exists s2 C, T s s2 /\ Rm log s2 A C /\ node log h r /\ (forall j x, node log j x -> anc h r j x -> C j x) /\
         (r + 1) * 2 ^ h <= r0 /\ RA sm (Pm A ((r + 1) * 2 ^ h) r0) /\ g sm = true /\ bad g A (r * 2 ^ h) r0)
      (fun '(s, r) => exists s2 C, T s s2 /\ Rm log s2 A C /\ leaf log r /\ r + 1 <= r0 /\ good g A (r + 1) r0 /\ bad g A r r0)
      step) with (fuel := 2 ^ log + 1) (m := h) (s := (s, r, sm)) as ([s' r'] & E & s2' & C' & HT' & HR' & Hl' & H1 & H2 & H3).
    - clear s s2 C r h sm HT HR Hn Ha Hr0 Hsm Ht Hf.
      intros h [[s r] sm] (s2 & C & HT & HR & Hn & Ha & Hr0 & Hsm & Ht & Hf). unfold step.
      destruct h as [|h].
      + assert (~ r < 2 ^ log) by (intros H; apply (node_inner _ _ _ Hn) in H; lia).
        destruct (Nat.ltb_spec r (2 ^ log)); [lia|]. eexists. split; [reflexivity|]. cbn.
        rewrite Nat.pow_0_r, !Nat.mul_1_r in *. exists s2, C. split; [exact HT|]. split; [exact HR|].
        pose proof (node_lt _ _ _ Hn). split; [unfold leaf; lia|]. split; [exact Hr0|]. split; [|exact Hf]. exists sm. auto.
      + assert (r < 2 ^ log) as Hls by (apply (node_inner _ _ _ Hn); lia).
        destruct (Nat.ltb_spec r (2 ^ log)); [|lia].
        destruct (push_down_rel log s s2 A C h r HT HR Hn Ha) as (s1 & s3 & C1 & -> & HT1 & HR1 & Ha1). cbn [mbind res_bind].
        destruct (read_rel log s1 s3 A C1 h (2 * r + 1) HT1 HR1 (node_right _ _ _ Hn) (Ha1 _ (or_intror eq_refl))) as (x & -> & Hx). cbn [mbind res_bind].
        pose proof (pow2_pos h) as Hph. rewrite Nat.pow_succ_r' in *.
        replace (r * (2 * 2 ^ h)) with (2 * r * 2 ^ h) in * by lia.
        replace ((r + 1) * (2 * 2 ^ h)) with ((2 * r + 1 + 1) * 2 ^ h) in * by lia.
        pose proof (HopA _ _ _ _ Hx Hsm) as Hy. rewrite <- (Pr_app e2 op2 L) in Hy by nia.
        destruct (g (op x sm)) eqn:Hg.
        * rewrite nsub_ok by lia. cbn [mbind res_bind]. replace (2 * r + 1 - 1) with (2 * r) by lia.
          eexists; split; [reflexivity|]; cbn; exists h; split; [lia|]; exists s3, C1; split; [exact HT1|]; split; [exact HR1|].
          split; [apply node_left; exact Hn|]. split; [apply Ha1; auto|]. split; [nia|]. split; [exact Hy|].
          split; [exact Hg|]. exact Hf.
        * eexists; split; [reflexivity|]; cbn; exists h; split; [lia|]; exists s3, C1; split; [exact HT1|]; split; [exact HR1|].
          split; [apply node_right; exact Hn|]. split; [apply Ha1; auto|]. split; [nia|]. split; [exact Hsm|].
          split; [exact Ht|]. exists (op x sm). auto.
    - exists s2, C. auto 10.
    - apply height_lt. apply Hn.
    - rewrite E. cbn [mbind res_bind]. unfold leaf in Hl'. rewrite nsub_ok by lia. cbn [mbind res_bind].
      exists s', s2', (r' + 1 - 2 ^ log), C'. split; [reflexivity|]. split; [exact HT'|]. split; [exact HR'|].
      replace (2 ^ log + (r' + 1 - 2 ^ log)) with (r' + 1) by lia. replace (r' + 1 - 1) with r' by lia.
      split; [lia|]. auto.
  Qed.

  Lemma min_left_any_loop log s s2 A g r0 : T s s2 -> Rm log s2 A (on_path (r0 - 1)) -> leaf log (r0 - 1) -> g e = true ->
    exists s' s2' l C', rloop (2 * 2 ^ log + 1) (lt_min_left_step op idm mapping comp (2 ^ log) g) (s, r0, e) = Ok (s', l) /\ T s' s2' /\ Rm log s2' A C' /\
      ((l = 0 /\ good g A (2 ^ log) r0) \/
       (0 < l /\ 2 ^ log + l <= r0 /\ good g A (2 ^ log + l) r0 /\ bad g A (2 ^ log + l - 1) r0)).
  Proof.
    intros HT HR Hl0 Hge. unfold leaf in Hl0. pose proof (pow2_pos log) as Hsz.
    destruct (rloop_inv_idx
      (fun m '(s', r, sm) => s' = s /\ exists h, m + 2 ^ log = r * 2 ^ h /\ 0 < m /\ h <= log /\
          r * 2 ^ h <= r0 /\ (r0 = r * 2 ^ h \/ (Nat.even r = true /\ r0 <= (r + 2) * 2 ^ h)) /\
          RA sm (Pm A (r * 2 ^ h) r0) /\ g sm = true)
      (fun '(s', l) => exists s2' C', T s' s2' /\ Rm log s2' A C' /\
        ((l = 0 /\ good g A (2 ^ log) r0) \/
         (0 < l /\ 2 ^ log + l <= r0 /\ good g A (2 ^ log + l) r0 /\ bad g A (2 ^ log + l - 1) r0)))
      (lt_min_left_step op idm mapping comp (2 ^ log) g)) with (fuel := 2 * 2 ^ log + 1) (m := r0 - 2 ^ log) (s := (s, r0, e))
      as ([s' r] & E & s2' & C' & H); [|split; [reflexivity|]; exists 0; rewrite Nat.pow_0_r, Nat.mul_1_r|lia|].
    2:{ split; [lia|]. split; [lia|]. split; [lia|]. split; [lia|]. split; [auto|]. rewrite Pr_nil by lia. auto. }
    2:{ exists s', s2', r, C'. auto. }
    intros m [[s' r] sm] (-> & h & H1 & H2 & Hh & H3 & H4 & Hsm & H5). unfold lt_min_left_step.
    assert (1 < r) as Hr.
    { assert (2 ^ h <= 2 ^ log) by (apply Nat.pow_le_mono_r; lia). nia. }
    rewrite nsub_ok by lia. cbn [mbind res_bind].
    destruct (strip_odd_spec (r - 1) ltac:(lia)) as (k & r' & -> & Hrr & Hr' & Hev). cbn [mbind res_bind].
    replace (r - 1 + 1) with r in Hrr by lia.
    assert (Hpar : r' = 1 \/ r0 <= (r' + 2) * 2 ^ (k + h)).
    { rewrite Nat.pow_add_r. destruct H4 as [->|[Hrev H4]]; [right; subst r; nia|].
      destruct k as [|k].
      { rewrite Nat.pow_0_r, Nat.mul_1_r in Hrr. subst r. rewrite Nat.add_1_r, Nat.even_succ in Hrev.
        destruct Hev as [->|Hev]; [left; reflexivity|]. rewrite <- Nat.negb_even, Hev in Hrev. discriminate. }
      right. rewrite Nat.pow_succ_r' in *. pose proof (pow2_pos k).
      etransitivity; [exact H4|].
      rewrite Nat.mul_assoc. apply Nat.mul_le_mono_r. subst r. nia. }
    assert (r * 2 ^ h = (r' + 1) * 2 ^ (k + h)) as E by (rewrite Nat.pow_add_r; nia).
    rewrite E in *. clear E H4. generalize dependent (k + h). clear k h Hh r Hr Hrr.
    intros h H1 H3 Hsm Hpar. pose proof (pow2_pos h) as Hph.
    assert (h <= log) as Hh.
    { apply (Nat.pow_le_mono_r_iff 2); [lia|]. nia. }
    assert (2 ^ log <= r' * 2 ^ h) as Hlo.
    { pose proof (size_split log h Hh) as Hq.
      assert (2 ^ (log - h) < r' + 1) by (apply (Nat.mul_lt_mono_pos_r (2 ^ h)); lia).
      rewrite Hq. apply Nat.mul_le_mono_r. lia. }
    assert (Hn : node log h r') by (split; [exact Hh|]; split; [exact Hlo|nia]).
    assert (Ha : forall j x, node log j x -> anc h r' j x -> on_path (r0 - 1) j x).
    { intros j x Hx [Hj ->]. split; [lia|]. symmetry. apply under.
      destruct (anc_range h r' j Hj) as [A1 A2].
      destruct Hev as [->|Hev].
      - exfalso. destruct Hx as (Hjl & Hx & _). rewrite Nat.div_small in Hx; [lia|].
        apply Nat.pow_gt_1; lia.
      - destruct Hpar as [->|Hpar]; [discriminate Hev|].
        apply Nat.even_spec in Hev as [q ->]. replace (2 * q / 2) with q in * by (symmetry; rewrite Nat.mul_comm; apply Nat.div_mul; lia).
        nia. }
    destruct (read_rel log s s2 A _ h r' HT HR Hn Ha) as (x & -> & Hx). cbn [mbind res_bind].
    pose proof (HopA _ _ _ _ Hx Hsm) as Hy. rewrite <- (Pr_app e2 op2 L) in Hy by nia.
    destruct (g (op x sm)) eqn:Hg; cbn [negb].
    - destruct (Nat.eqb_spec (lowbit r') r') as [Hp|Hnp].
      + eexists. split; [reflexivity|]. cbn. exists s2. eexists. split; [exact HT|]. split; [exact HR|]. left. split; [reflexivity|].
        destruct (lowbit_eq_pow2 r') as [j Hj]; [lia|exact Hp|].
        assert (r' * 2 ^ h = 2 ^ log) as E; [|rewrite <- E; eexists; split; [exact Hy|exact Hg]].
        assert (r' * 2 ^ h < 2 * 2 ^ log) as Hgt by nia.
        rewrite Hj in *. rewrite <- Nat.pow_add_r in *.
        assert (log <= j + h) as G1 by (apply (Nat.pow_le_mono_r_iff 2); [lia|lia]).
        assert (j + h < Datatypes.S log) as G2 by (apply (Nat.pow_lt_mono_r_iff 2); [lia|]; rewrite Nat.pow_succ_r'; lia).
        f_equal. lia.
      + eexists. split; [reflexivity|]. cbn.
        assert (r' * 2 ^ h <> 2 ^ log) as Hne2.
        { intros E. apply Hnp. rewrite (size_split log h Hh) in E.
          apply Nat.mul_cancel_r in E; [|lia]. rewrite E. apply lowbit_pow2. }
        exists (r' * 2 ^ h - 2 ^ log). split; [nia|]. split; [reflexivity|].
        exists h. split; [nia|]. split; [nia|]. split; [lia|]. split; [nia|].
        split; [right|].
        { destruct Hev as [->|Hev].
          - exfalso. apply Hne2. assert (h = log) as ->; [|lia].
            apply Nat.le_antisymm; [exact Hh|]. apply (Nat.pow_le_mono_r_iff 2); lia.
          - split; [exact Hev|]. destruct Hpar as [->|Hpar]; [discriminate Hev|exact Hpar]. }
        split; [exact Hy|exact Hg].
    - destruct (descend_left_any log s s2 A _ g r' h _ r0 HT HR Hn Ha H3 Hsm H5) as (s' & s2' & l & C' & -> & HT' & HR' & Hpost); [eexists; split; [exact Hy|exact Hg]|].
      cbn [mbind res_bind]. eexists. split; [reflexivity|]. cbn. exists s2', C'. split; [exact HT'|]. split; [exact HR'|]. right. exact Hpost.
  Qed.

  (** A tree followed by one over the lawful functions, whose array has no unused places at the end. *)
  Definition Sim (t : lazytree S F) (a : list S2) : Prop :=
    exists t2, lazy_rel RS RF t t2 /\ LInv e2 op2 idm2 mapping2 t2 a /\ length a = lt_size t.

  Lemma sim_max_right t a l g : Sim t a -> l <= lt_n t -> g e = true ->
    exists t' r, lt_max_right e op idm mapping comp t l g = Ok (t', r) /\ same t t' /\ Sim t' a /\ l <= r /\
      ((r = lt_n t /\ exists x, (RA x (mprod e2 op2 (slice a l r)) \/ RA x (mprod e2 op2 (slice a l (length a)))) /\ g x = true) \/
       (r < lt_size t /\ (exists x, RA x (mprod e2 op2 (slice a l r)) /\ g x = true) /\ exists y, RA y (mprod e2 op2 (slice a l (r + 1))) /\ g y = false)).
  Proof.
    intros (t2 & Ht & I & Hfull) Hl Hg. pose proof Ht as (En & Es & El & HT). unfold lt_max_right.
    pose proof (li_le _ _ _ _ _ _ I) as Hle. pose proof (li_n _ _ _ _ _ _ I) as Hn. pose proof (li_size _ _ _ _ _ _ I) as Hsize.
    destruct (Nat.leb_spec l (lt_n t)); [|lia]. rewrite Hg. cbn [rassert mbind res_bind].
    destruct (Nat.eqb_spec l (lt_n t)) as [E|Hne].
    { eexists _, _. split; [reflexivity|]. split; [apply same_refl|]. split; [exists t2; auto|]. split; [lia|]. left. split; [reflexivity|].
      exists e. rewrite (slice_nil a l (lt_n t)) by lia. split; [left; exact He|exact Hg]. }
    destruct (push_path e2 op2 idm2 mapping2 comp2 L ML t2 a I l ltac:(lia)) as (s2 & E2 & HR).
    pose proof (push_path_rel idm mapping comp idm2 mapping2 comp2 RS RF Hid Hmap Hcomp (lt_size t2) (lt_log t2) _ _ (l + lt_size t2) HT) as Hp.
    rewrite E2 in Hp. apply rel_ok_r in Hp as (s & E3 & Hp). rewrite Es, El, E3. cbn [mbind res_bind].
    destruct (max_right_any_loop (lt_log t2) s s2 _ (lt_n t) g (l + lt_size t2) Hp HR) as (s' & s2' & r & C & E & HT' & HR' & Hpost);
      [eapply leaf_of; [exact I|lia]|exact Hg|].
    rewrite <- Hsize in E. rewrite E. cbn [mbind res_bind]. eexists _, _. split; [reflexivity|]. split; [apply same_with|].
    split. { exists (with_tree t2 s2'). split; [apply with_rel; assumption|]. split; [|exact Hfull]. eapply linv_with; [exact I|exact HR'|reflexivity]. }
    assert (Hconv : forall b, l <= b -> Pm (arr e2 (lt_log t2) a) (l + lt_size t2) (lt_size t2 + b) = mprod e2 op2 (slice a l b)).
    { intros b Hb. rewrite Hsize, (Nat.add_comm l). apply Pr_arr; assumption. }
    rewrite <- Hsize in Hpost.
    destruct Hpost as [[-> Hgt]|(Hr & Hgt & Hgf)].
    - split; [lia|]. left. split; [reflexivity|]. replace (2 * lt_size t2) with (lt_size t2 + lt_size t2) in Hgt by lia.
      destruct Hgt as (x & Hx & Hgx). rewrite Hconv in Hx by lia. exists x. split; [right|exact Hgx]. rewrite Hfull, Es. exact Hx.
    - unfold good, bad in Hgt, Hgf. rewrite Hconv in Hgt by lia. replace (lt_size t2 + r + 1) with (lt_size t2 + (r + 1)) in Hgf by lia.
      rewrite Hconv in Hgf by lia. split; [lia|]. right. split; [lia|]. auto.
  Qed.

  Lemma sim_min_left t a r g : Sim t a -> r <= lt_n t -> g e = true ->
    exists t' l, lt_min_left e op idm mapping comp t r g = Ok (t', l) /\ same t t' /\ Sim t' a /\ l <= r /\
      (exists x, RA x (mprod e2 op2 (slice a l r)) /\ g x = true) /\ (0 < l -> exists y, RA y (mprod e2 op2 (slice a (l - 1) r)) /\ g y = false).
  Proof.
    intros (t2 & Ht & I & Hfull) Hl Hg. pose proof Ht as (En & Es & El & HT). unfold lt_min_left.
    pose proof (li_le _ _ _ _ _ _ I) as Hle. pose proof (li_n _ _ _ _ _ _ I) as Hn. pose proof (li_size _ _ _ _ _ _ I) as Hsize.
    destruct (Nat.leb_spec r (lt_n t)); [|lia]. rewrite Hg. cbn [rassert mbind res_bind].
    destruct (Nat.eqb_spec r 0) as [E|Hne].
    { eexists _, _. split; [reflexivity|]. split; [apply same_refl|]. split; [exists t2; auto|]. split; [lia|]. split; [|lia].
      exists e. rewrite slice_nil by lia. split; [exact He|exact Hg]. }
    rewrite nsub_ok by lia. cbn [mbind res_bind].
    destruct (push_path e2 op2 idm2 mapping2 comp2 L ML t2 a I (r - 1) ltac:(lia)) as (s2 & E2 & HR).
    pose proof (push_path_rel idm mapping comp idm2 mapping2 comp2 RS RF Hid Hmap Hcomp (lt_size t2) (lt_log t2) _ _ (r - 1 + lt_size t2) HT) as Hp.
    rewrite E2 in Hp. apply rel_ok_r in Hp as (s & E3 & Hp). replace (r - 1 + lt_size t2) with (r + lt_size t2 - 1) in E3 by lia.
    rewrite Es, El, E3. cbn [mbind res_bind].
    replace (r - 1 + lt_size t2) with (r + lt_size t2 - 1) in HR by lia.
    destruct (min_left_any_loop (lt_log t2) s s2 _ g (r + lt_size t2) Hp HR) as (s' & s2' & l & C & E & HT' & HR' & Hpost);
      [replace (r + lt_size t2 - 1) with (r - 1 + lt_size t2) by lia; eapply leaf_of; [exact I|lia]|exact Hg|].
    rewrite <- Hsize in E. rewrite E. cbn [mbind res_bind]. eexists _, _. split; [reflexivity|]. split; [apply same_with|].
    split. { exists (with_tree t2 s2'). split; [apply with_rel; assumption|]. split; [|exact Hfull]. eapply linv_with; [exact I|exact HR'|reflexivity]. }
    assert (Hconv : forall b, b <= r -> Pm (arr e2 (lt_log t2) a) (lt_size t2 + b) (r + lt_size t2) = mprod e2 op2 (slice a b r)).
    { intros b Hb. rewrite Hsize, (Nat.add_comm r). apply Pr_arr; assumption. }
    rewrite <- Hsize in Hpost. unfold good, bad in Hpost.
    destruct Hpost as [[-> Hgt]|(H1 & Hlr & Hgt & Hgf)].
    - split; [lia|]. split; [|lia]. destruct Hgt as (x & Hx & Hgx). replace (lt_size t2) with (lt_size t2 + 0) in Hx at 1 by lia.
      rewrite Hconv in Hx by lia. eauto.
    - rewrite Hconv in Hgt by lia. replace (lt_size t2 + l - 1) with (lt_size t2 + (l - 1)) in Hgf by lia.
      rewrite Hconv in Hgf by lia. split; [lia|]. split; [exact Hgt|]. intros _. exact Hgf.
  Qed.
End Search.
