(** Every call of a lazy segment tree whose operation may panic, caught panics included, is allowed by the array of candidates. *)
From Verif Require Import Prelude UtilModel UtilProof ArraySpec PartialOps SegtreeModel SegtreeProof SegtreeChkModel LazySpec LazyModel LazyProof LazyTop
  LazyChkModel LazyChkProof Unwind LazyUnwindModel TreeUnwindSpec LazyUnwindSpec LazyUnwindGhost LazyUnwindProof LazyUnwindTop.

(** how a computation may end: with an answer, or unwound *)
Definition ends {X A} (P : A -> X -> Prop) (U : X -> Prop) (r : res (X * option A)) : Prop :=
  match r with Ok (s, Some a) => P a s | Ok (s, None) => U s | _ => False end.
Lemma ends_bind {X A B} (P : B -> X -> Prop) U (m : uw X A) (k : A -> uw X B) s :
  ends (fun a s' => ends P U (k a s')) U (m s) -> ends P U (ubind m k s).
Proof. unfold ends, ubind. destruct (m s) as [[s' [a|]]| |]; cbn [mbind res_bind]; auto. Qed.
Lemma ends_read {X A} (P : A -> X -> Prop) U (r : X -> res A) s :
  (exists a, r s = Ok a /\ P a s) \/ (r s = Panic /\ U s) -> ends P U (uread r s).
Proof. unfold ends, uread. intros [(a & -> & H)|[-> H]]; exact H. Qed.
Lemma ends_ok {X A} (P : A -> X -> Prop) U r s' (a : A) : r = Ok (s', Some a) -> P a s' -> ends P U r.
Proof. intros -> H. exact H. Qed.
Lemma ends_mono {X A} (P P' : A -> X -> Prop) (U U' : X -> Prop) r : ends P U r -> (forall a s, P a s -> P' a s) -> (forall s, U s -> U' s) -> ends P' U' r.
Proof. unfold ends. destruct r as [[s' [a|]]| |]; auto. Qed.
Lemma ends_loop {X B R} (I : nat -> B -> X -> Prop) (Q : R -> X -> Prop) (U : X -> Prop) (step : B -> uw X (B + R)) :
  (forall m b s, I m b s -> ends (fun r s' => match r with inl b' => exists m', m' < m /\ I m' b' s' | inr r => Q r s' end) U (step b s)) ->
  forall fuel m b s, m < fuel -> I m b s -> ends Q U (uloop fuel step b s).
Proof.
  intros H fuel m b s Hm HI. apply (uloop_inv I Q U step) with (m := m); [|exact Hm|exact HI].
  intros m' b' s' HI'. specialize (H m' b' s' HI'). unfold ends in H. destruct (step b' s') as [[s'' [[?|?]|]]| |]; exact H.
Qed.
Lemma ends_inv {X A} (P : A -> X -> Prop) U (r : res (X * option A)) : ends P U r -> exists s o, r = Ok (s, o) /\ match o with Some a => P a s | None => U s end.
Proof. unfold ends. destruct r as [[s o]| |]; [|contradiction|contradiction]. intros H. exists s, o. split; [reflexivity|]. destruct o; exact H. Qed.

Section Ops.
  Context {S F : Type} (e : S) (op : S -> S -> S) (idm : F) (mapping : F -> S -> S) (comp : F -> F -> F).
  Context (L : monoid_laws e op) (ML : map_laws op idm mapping comp).
  Context (opc : S -> S -> res S) (O : or_panics op opc).
  Local Notation mapc := (fun f x => Ok (mapping f x)).
  Local Notation compc := (fun f g => Ok (comp f g)).
  Local Notation gmap := (gmap mapping).
  Local Notation gcomp := (gcomp comp).
  Local Notation gtree := (tree (list (list S)) (list F)).
  Local Notation Rel := (Rel e op).
  Local Notation GR log g A C := (R (@nil (list S)) app [idm] gmap log g A all C).
  Local Notation GL := (@glaws S).
  Local Notation GML := (gmaplaws op idm mapping comp ML).
  Local Notation sp := (some_prod e op).
  Local Notation garr := (garr e).
  Local Notation TInv := (TInv e op idm mapping).
  Local Notation CInv := (CInv e op idm mapping).
  Implicit Types (s : tree S F) (g : gtree) (k : nat) (cells : list (list S)) (t : lazytree S F).

  (** ** The shadow of a new tree *)
  Section Start.
    Context (log : nat) (s : tree S F) (a : list S) (HR : R e op idm mapping log s (arr e log a) all none).
    Local Notation size := (2 ^ log).
    Let ht k := log - Nat.log2 k.
    Let vl := val e idm mapping s.
    Let gd k : list (list S) := map (fun p => [vl (ht k) p]) (seq (k * 2 ^ ht k) (2 ^ ht k)).
    Let g0 : gtree := (map gd (seq 0 (2 * size)), map (fun f => [f]) s.2).

    Lemma start_ht k : 1 <= k < 2 * size -> node log (ht k) k.
    Proof.
      intros Hk. destruct (Nat.log2_spec k) as [H1 H2]; [lia|]. rewrite Nat.pow_succ_r' in H2.
      assert (Nat.log2 k <= log) as Hl. { apply Nat.lt_succ_r. apply (Nat.pow_lt_mono_r_iff 2); [lia|]. rewrite Nat.pow_succ_r'. lia. }
      apply node_range. unfold ht. split; [lia|]. replace (log - (log - Nat.log2 k)) with (Nat.log2 k) by lia. lia.
    Qed.
    Lemma start_node h k : node log h k -> ht k = h.
    Proof. intros H. apply (node_uniq log _ _ k); [|exact H]. apply start_ht. apply (node_lt _ _ _ H). Qed.
    Lemma start_gd k : k < 2 * size -> g0.1 !! k = Some (gd k).
    Proof. intros H. unfold g0. cbn [fst]. rewrite list_lookup_fmap. rewrite lookup_seq_lt by exact H. reflexivity. Qed.
    Lemma start_lz k : Lz [idm] g0 k = [Lz idm s k].
    Proof. unfold Lz, g0. cbn [snd]. rewrite list_lookup_fmap. destruct (s.2 !! k); reflexivity. Qed.
    Lemma start_val h p : h <= log -> leaf log p -> val (@nil (list S)) [idm] gmap g0 h p = [[vl h p]].
    Proof.
      intros Hh Hp. induction h as [|h IH].
      - cbn [val]. unfold D. unfold leaf in Hp. rewrite start_gd by lia. cbn. unfold gd. rewrite (start_node 0 p) by (apply leaf_node0; exact Hp). rewrite Nat.pow_0_r, Nat.mul_1_r. reflexivity.
      - cbn [val]. rewrite IH by lia. rewrite start_lz. reflexivity.
    Qed.
    Lemma start_GR : GR log g0 (garr log (map (fun x => [x]) a)) none.
    Proof.
      pose proof (R_d _ _ _ _ _ _ _ _ _ HR) as Hd. pose proof (R_lz _ _ _ _ _ _ _ _ _ HR) as Hlz.
      split.
      - unfold g0. cbn [fst]. rewrite map_length, seq_length. reflexivity.
      - unfold g0. cbn [snd]. rewrite map_length. exact Hlz.
      - intros p Hp. rewrite start_val by (auto; lia). unfold vl. rewrite (R_val _ _ _ _ _ _ _ _ _ HR p Hp).
        unfold LazyUnwindProof.garr, arr. rewrite list_lookup_fmap. destruct (a !! _); reflexivity.
      - intros h k Hk _. pose proof (node_lt _ _ _ Hk). pose proof (node_hi _ _ _ Hk) as Hhi. unfold D. rewrite start_gd by lia. cbn [default from_option id].
        unfold gd, Pr. rewrite (start_node h k Hk). replace ((k + 1) * 2 ^ h - k * 2 ^ h) with (2 ^ h) by lia.
        assert (forall xs, (forall p, In p xs -> leaf log p) -> map (fun p => [vl h p]) xs = mprod [] app (map (val [] [idm] gmap g0 h) xs)) as Hmap.
        { induction xs as [|x xs IH]; intros Hx; [reflexivity|]. cbn [map mprod foldr]. rewrite start_val; [|apply Hk|apply Hx; left; reflexivity].
          cbn [app]. f_equal. apply IH. intros p Hp. apply Hx. right. exact Hp. }
        apply Hmap. intros p Hp. apply in_seq in Hp. destruct Hk as (_ & Hk & _). unfold leaf. lia.
      - intros h k _ _ [].
    Qed.
    Lemma start_Rel : Rel size s g0.
    Proof.
      pose proof (R_d _ _ _ _ _ _ _ _ _ HR) as Hd. split.
      - unfold g0. cbn [fst]. rewrite map_length, seq_length. lia.
      - unfold g0. cbn [snd]. induction s.2 as [|f fs IH]; constructor; [eauto|exact IH].
      - intros k v w Hk Hv Hw. pose proof (lookup_lt_Some _ _ _ Hv) as Hl. rewrite start_gd in Hw by lia. injection Hw as <-.
        pose proof (start_ht k ltac:(lia)) as Hn. pose proof (R_good _ _ _ _ _ _ _ _ _ HR _ _ Hn Logic.I) as HG. unfold D in HG. rewrite Hv in HG. cbn in HG.
        unfold Pr in HG. replace ((k + 1) * 2 ^ ht k - k * 2 ^ ht k) with (2 ^ ht k) in HG by lia. pose proof (pow2_pos (ht k)) as Hp.
        split; [unfold gd; destruct (2 ^ ht k); [lia|discriminate]|]. exists (map (vl (ht k)) (seq (k * 2 ^ ht k) (2 ^ ht k))). split; [|exact HG].
        unfold choice, gd. clear. generalize (seq (k * 2 ^ ht k) (2 ^ ht k)). induction l as [|x xs IH]; constructor; [left|exact IH].
      - intros k v w Hk Hv Hw. pose proof (lookup_lt_Some _ _ _ Hv) as Hl. rewrite start_gd in Hw by lia. injection Hw as <-.
        exists []. unfold gd. rewrite (start_node 0 k) by (apply leaf_node0; unfold leaf; lia). rewrite Nat.pow_0_r, Nat.mul_1_r. cbn.
        unfold vl. cbn [val]. unfold D. rewrite Hv. reflexivity.
    Qed.
  End Start.

  Lemma CInv_start t a : LInv e op idm mapping t a -> CInv t (map (fun x => [x]) a).
  Proof.
    intros [H1 H2 H3 H4]. split; [rewrite map_length; exact H1|exact H2|exact H3|]. eexists _, none. split; [|apply start_GR; exact H4]. apply start_Rel with (a := a). exact H4.
  Qed.

  (** ** The searches *)
  Lemma opc_cases x y : opc x y = Ok (op x y) \/ opc x y = Panic.
  Proof. apply O. Qed.
  Lemma read_op log s cells k (f : S -> res S) : (forall x, (exists y, f x = Ok y) \/ f x = Panic) -> TInv log s cells -> k < 2 * 2 ^ log ->
    (exists y, (x ← vget s.1 k; f x) = Ok y) \/ (x ← vget s.1 k; f x) = Panic.
  Proof. intros Hf HT Hk. destruct (read_T e op idm mapping log s cells k HT Hk) as [v ->]. cbn [mbind res_bind]. apply Hf. Qed.

  Lemma descend_right_ends log s cells (p : S -> bool) l0 h l sm : TInv log s cells -> node log h l -> l0 <= l * 2 ^ h ->
    ends (fun r s' => leaf log r /\ l0 <= r /\ TInv log s' cells) (fun s' => TInv log s' cells)
      (uloop (2 ^ log + 1) (ltu_descend_right_step opc idm mapc compc (2 ^ log) p) (l, sm) s).
  Proof.
    intros HT Hn Hl.
    apply (ends_loop (fun h '(l, sm) s' => node log h l /\ l0 <= l * 2 ^ h /\ TInv log s' cells)) with (m := h);
      [|apply height_lt; apply Hn|auto].
    clear h l sm s HT Hn Hl. intros h [l sm] s (Hn & Hl & HT). unfold ltu_descend_right_step. pose proof (node_lt _ _ _ Hn) as Hlt.
    destruct (Nat.ltb_spec l (2 ^ log)) as [Hi|Hi].
    - destruct h as [|h]; [apply (node_inner log) in Hn; lia|].
      destruct (push_T e op idm mapping comp L ML log s cells l HT ltac:(lia)) as (s' & Es & HT'). apply ends_bind.
      apply (ends_ok _ _ _ _ _ Es). apply ends_bind, ends_read.
      pose proof (node_left _ _ _ Hn) as Hln. pose proof (node_right _ _ _ Hn) as Hrn. rewrite Nat.pow_succ_r' in Hl.
      destruct (read_op log s' cells (2 * l) (opc sm)) as [[y Ey]|Ep]; [intros x; destruct (opc_cases sm x) as [->| ->]; eauto|exact HT'|apply (node_lt _ _ _ Hln)| |].
      + left. exists y. split; [exact Ey|]. destruct (p y); cbn; exists h; (split; [lia|]).
        * split; [exact Hrn|]. split; [nia|exact HT'].
        * split; [exact Hln|]. split; [nia|exact HT'].
      + right. auto.
    - assert (h = 0) as ->. { destruct h; [reflexivity|]. apply (node_inner log) in Hn. lia. }
      cbn. rewrite Nat.pow_0_r, Nat.mul_1_r in Hl. split; [unfold leaf; lia|auto].
  Qed.

  Lemma max_right_ends log s cells n (p : S -> bool) l0 : TInv log s cells -> leaf log l0 -> l0 <= n + 2 ^ log ->
    ends (fun r s' => l0 <= r + 2 ^ log /\ TInv log s' cells) (fun s' => TInv log s' cells)
      (uloop (2 * 2 ^ log + 1) (ltu_max_right_step opc idm mapc compc n (2 ^ log) p) (l0, e) s).
  Proof.
    intros HT Hl0 Hn0. unfold leaf in Hl0. pose proof (pow2_pos log) as Hsz.
    apply (ends_loop (fun m '(l, sm) s' => TInv log s' cells /\ exists h, m + l * 2 ^ h = 2 * 2 ^ log /\ l * 2 ^ h < 2 * 2 ^ log /\ l0 <= l * 2 ^ h)) with (m := 2 * 2 ^ log - l0);
      [|lia|split; [exact HT|exists 0; rewrite Nat.pow_0_r, Nat.mul_1_r; lia]].
    clear s HT. intros m [l sm] s (HT & h & H1 & H2 & H3). unfold ltu_max_right_step. assert (0 < l) as Hl by nia.
    destruct (strip_even_spec l Hl) as (k & l' & Estrip & Hll & Hodd). apply ends_bind, ends_read. left. exists l'. split; [exact Estrip|].
    assert (l * 2 ^ h = l' * 2 ^ (k + h)) as E by (rewrite Nat.pow_add_r; nia).
    rewrite E in *. clear E Estrip. generalize dependent (k + h). clear k h l Hl Hll. intros h H1 H2 H3. pose proof (pow2_pos h) as Hph.
    assert (0 < l') as Hl' by nia.
    assert (Hh : h <= log).
    { apply Nat.lt_succ_r. apply (Nat.pow_lt_mono_r_iff 2); [lia|]. rewrite Nat.pow_succ_r'. nia. }
    assert (Hn : node log h l') by (split; [exact Hh|lia]).
    destruct (read_T e op idm mapping log s cells l' HT) as [x Ex]; [apply (node_lt _ _ _ Hn)|].
    apply ends_bind, ends_read. left. exists x. split; [exact Ex|]. apply ends_bind, ends_read.
    destruct (opc_cases sm x) as [Ey|Ep]; [|right; auto]. left. eexists. split; [exact Ey|].
    destruct (p (op sm x)); cbn [negb].
    - apply ends_bind, ends_read. left. eexists. split; [exact Ey|].
      destruct (Nat.eqb_spec (lowbit (l' + 1)) (l' + 1)) as [Hp|Hnp]; cbn; [split; [lia|exact HT]|].
      assert ((l' + 1) * 2 ^ h <> 2 * 2 ^ log) as Hne2.
      { intros E. apply Hnp. rewrite (size_split log h Hh), Nat.mul_assoc in E.
        apply Nat.mul_cancel_r in E; [|lia]. rewrite E, <- Nat.pow_succ_r'. apply lowbit_pow2. }
      pose proof (node_hi _ _ _ Hn) as Hhi.
      exists (2 * 2 ^ log - (l' + 1) * 2 ^ h). split; [nia|]. split; [exact HT|]. exists h. split; [nia|]. split; nia.
    - apply ends_bind. eapply ends_mono; [apply (descend_right_ends log s cells p l0 h l' sm HT Hn H3)| |auto].
      intros r s' (Hr & Hlr & HT'). unfold leaf in Hr. apply ends_bind, ends_read. left. exists (r - 2 ^ log).
      split; [apply nsub_ok; lia|]. cbn. split; [lia|exact HT'].
  Qed.

  Lemma descend_left_ends log s cells (p : S -> bool) r0 h r sm : TInv log s cells -> node log h r -> (r + 1) * 2 ^ h <= r0 ->
    ends (fun r s' => leaf log r /\ r + 1 <= r0 /\ TInv log s' cells) (fun s' => TInv log s' cells)
      (uloop (2 ^ log + 1) (ltu_descend_left_step opc idm mapc compc (2 ^ log) p) (r, sm) s).
  Proof.
    intros HT Hn Hl.
    apply (ends_loop (fun h '(r, sm) s' => node log h r /\ (r + 1) * 2 ^ h <= r0 /\ TInv log s' cells)) with (m := h);
      [|apply height_lt; apply Hn|auto].
    clear h r sm s HT Hn Hl. intros h [r sm] s (Hn & Hl & HT). unfold ltu_descend_left_step. pose proof (node_lt _ _ _ Hn) as Hlt.
    destruct (Nat.ltb_spec r (2 ^ log)) as [Hi|Hi].
    - destruct h as [|h]; [apply (node_inner log) in Hn; lia|].
      destruct (push_T e op idm mapping comp L ML log s cells r HT ltac:(lia)) as (s' & Es & HT'). apply ends_bind.
      apply (ends_ok _ _ _ _ _ Es). apply ends_bind, ends_read.
      pose proof (node_left _ _ _ Hn) as Hln. pose proof (node_right _ _ _ Hn) as Hrn. rewrite Nat.pow_succ_r' in Hl.
      destruct (read_op log s' cells (2 * r + 1) (fun x => opc x sm)) as [[y Ey]|Ep]; [intros x; destruct (opc_cases x sm) as [->| ->]; eauto|exact HT'|apply (node_lt _ _ _ Hrn)| |].
      + left. exists y. split; [exact Ey|]. destruct (p y).
        * apply ends_bind, ends_read. left. exists (2 * r). split; [rewrite nsub_ok by lia; f_equal; lia|].
          cbn. exists h; (split; [lia|]). split; [exact Hln|]. split; [nia|exact HT'].
        * cbn. exists h; (split; [lia|]). split; [exact Hrn|]. split; [nia|exact HT'].
      + right. auto.
    - assert (h = 0) as ->. { destruct h; [reflexivity|]. apply (node_inner log) in Hn. lia. }
      cbn. rewrite Nat.pow_0_r, Nat.mul_1_r in Hl. split; [unfold leaf; lia|auto].
  Qed.

  Lemma min_left_ends log s cells (p : S -> bool) r0 : TInv log s cells -> leaf log (r0 - 1) ->
    ends (fun r s' => r + 2 ^ log <= r0 /\ TInv log s' cells) (fun s' => TInv log s' cells)
      (uloop (2 * 2 ^ log + 1) (ltu_min_left_step opc idm mapc compc (2 ^ log) p) (r0, e) s).
  Proof.
    intros HT Hl0. unfold leaf in Hl0. pose proof (pow2_pos log) as Hsz.
    apply (ends_loop (fun m '(r, sm) s' => TInv log s' cells /\ exists h, m + 2 ^ log = r * 2 ^ h /\ 0 < m /\ h <= log /\ r * 2 ^ h <= r0)) with (m := r0 - 2 ^ log);
      [|lia|split; [exact HT|exists 0; rewrite Nat.pow_0_r, Nat.mul_1_r; lia]].
    clear s HT. intros m [r sm] s (HT & h & H1 & H2 & Hh & H3). unfold ltu_min_left_step.
    assert (1 < r) as Hr. { assert (2 ^ h <= 2 ^ log) by (apply Nat.pow_le_mono_r; lia). nia. }
    apply ends_bind, ends_read. left. exists (r - 1). split; [apply nsub_ok; lia|].
    destruct (strip_odd_spec (r - 1) ltac:(lia)) as (k & r' & Estrip & Hrr & Hr' & Hev). apply ends_bind, ends_read. left. exists r'. split; [exact Estrip|].
    replace (r - 1 + 1) with r in Hrr by lia.
    assert (r * 2 ^ h = (r' + 1) * 2 ^ (k + h)) as E by (rewrite Nat.pow_add_r; nia).
    rewrite E in *. clear E Estrip. generalize dependent (k + h). clear k h Hh r Hr Hrr. intros h H1 H3. pose proof (pow2_pos h) as Hph.
    assert (h <= log) as Hh. { apply (Nat.pow_le_mono_r_iff 2); [lia|]. nia. }
    assert (2 ^ log <= r' * 2 ^ h) as Hlo.
    { pose proof (size_split log h Hh) as Hq.
      assert (2 ^ (log - h) < r' + 1) by (apply (Nat.mul_lt_mono_pos_r (2 ^ h)); lia).
      rewrite Hq. apply Nat.mul_le_mono_r. lia. }
    assert (Hn : node log h r') by (split; [exact Hh|]; split; [exact Hlo|nia]).
    destruct (read_T e op idm mapping log s cells r' HT) as [x Ex]; [apply (node_lt _ _ _ Hn)|].
    apply ends_bind, ends_read. left. exists x. split; [exact Ex|]. apply ends_bind, ends_read.
    destruct (opc_cases x sm) as [Ey|Ep]; [|right; auto]. left. eexists. split; [exact Ey|].
    destruct (p (op x sm)); cbn [negb].
    - apply ends_bind, ends_read. left. eexists. split; [exact Ey|].
      destruct (Nat.eqb_spec (lowbit r') r') as [Hp|Hnp]; cbn; [split; [lia|exact HT]|].
      assert (r' * 2 ^ h <> 2 ^ log) as Hne2.
      { intros E. apply Hnp. rewrite (size_split log h Hh) in E. apply Nat.mul_cancel_r in E; [|lia]. rewrite E. apply lowbit_pow2. }
      exists (r' * 2 ^ h - 2 ^ log). split; [nia|]. split; [exact HT|]. exists h. split; [nia|]. split; [nia|]. split; [lia|nia].
    - apply ends_bind. eapply ends_mono; [apply (descend_left_ends log s cells p r0 h r' sm HT Hn H3)| |auto].
      intros q s' (Hq & Hlr & HT'). unfold leaf in Hq. apply ends_bind, ends_read. left. exists (q + 1 - 2 ^ log).
      split; [apply nsub_ok; lia|]. cbn. split; [lia|exact HT'].
  Qed.

  (** ** One call *)
  Lemma on_tree_ok {A} (m : lazytree S F -> uw (tree S F) A) t s o : m t (lt_d t, lt_lz t) = Ok (s, o) -> on_tree m t = Ok (with_tree t s, o).
  Proof. intros H. unfold on_tree. rewrite H. reflexivity. Qed.
  Lemma assert_true b : b = true -> rassert b = Ok tt.
  Proof. intros ->. reflexivity. Qed.
  Lemma assert_false b : b = false -> rassert b = Panic.
  Proof. intros ->. reflexivity. Qed.
  Lemma CInv_same t cells s : CInv t cells -> TInv (lt_log t) s cells -> CInv (with_tree t s) cells.
  Proof. intros H HT. apply (CInv_with e op idm mapping t cells s cells); auto. Qed.

  Lemma alter_some {A} (f : A -> A) (l : list A) i x : l !! i = Some x -> alter f i l = <[i := f x]> l.
  Proof.
    intros H. apply list_eq. intros j. destruct (decide (i = j)) as [<-|Hne].
    - rewrite list_lookup_alter, H, list_lookup_insert by (eapply lookup_lt_Some; exact H). reflexivity.
    - rewrite list_lookup_alter_ne, list_lookup_insert_ne by exact Hne. reflexivity.
  Qed.
  Lemma alter_none {A} (f : A -> A) (l : list A) i : length l <= i -> alter f i l = l.
  Proof.
    intros H. apply list_eq. intros j. destruct (decide (i = j)) as [<-|Hne]; [|apply list_lookup_alter_ne; exact Hne].
    rewrite list_lookup_alter, lookup_ge_None_2 by exact H. reflexivity.
  Qed.
  Lemma map_range_ext {A} (f g : A -> A) l r (xs : list A) : (forall x, f x = g x) -> map_range f l r xs = map_range g l r xs.
  Proof. intros H. unfold map_range. apply imap_ext. intros i x _. rewrite H. reflexivity. Qed.
  Lemma map_range_empty {A} (f : A -> A) l (xs : list A) : map_range f l l xs = xs.
  Proof.
    unfold map_range. rewrite <- (list_fmap_id xs) at 2. rewrite <- (imap_const id xs). apply imap_ext. intros i x _.
    destruct (Nat.leb_spec l i), (Nat.ltb_spec i l); cbn; try reflexivity; lia.
  Qed.

  Local Notation ltu_step := (ltu_step e opc idm mapc compc).
  Local Notation allowed t cells o r := (exists t' out cells', r = Ok (t', out) /\ lz_cells_step e op mapping cells o out cells' /\ CInv t' cells') (only parsing).
  Lemma step_unit t cells o (m : uw (lazytree S F) unit) s out cells' : m t = Ok (with_tree t s, out) -> CInv t cells ->
    length cells' = length cells -> TInv (lt_log t) s cells' -> lz_cells_step e op mapping cells o (option_map (fun _ => LzUnit) out) cells' ->
    allowed t cells o ((m ;;~ uret LzUnit) t).
  Proof.
    intros Hm HC Hl HT Hs. exists (with_tree t s), (option_map (fun _ => LzUnit) out), cells'. split; [|split; [exact Hs|apply (CInv_with e op idm mapping t cells); assumption]].
    destruct out as [[]|]; [rewrite (ubind_ok _ _ _ _ _ Hm); reflexivity|apply ubind_unwound; exact Hm].
  Qed.
  Lemma with_same t : with_tree t (lt_d t, lt_lz t) = t.
  Proof. destruct t; reflexivity. Qed.

  Lemma set_cells t cells p x : CInv t cells -> allowed t cells (LzSet p x) (ltu_step (LzSet p x) t).
  Proof.
    intros HC. pose proof HC as [H1 H2 H3 H4]. cbn [LazyUnwindModel.ltu_step].
    destruct (Nat.ltb_spec p (lt_n t)) as [Hp|Hp].
    - rewrite H2 in *. destruct (push_path_T e op idm mapping comp L ML (lt_log t) _ cells (p + 2 ^ lt_log t) H4) as (s1 & g & Es1 & HR & HG); [unfold leaf; lia|].
      destruct (lookup_lt_is_Some_2 cells p) as [c Hc]; [lia|].
      destruct (write_T e op idm mapping L opc O (lt_log t) s1 g cells p x [x]) as (d1 & s2 & o & Ed & Eu & Hok & _); [lia|lia|exact HR|exact HG|eauto|].
      destruct (write_T e op idm mapping L opc O (lt_log t) s1 g cells p x (x :: c)) as (d1' & s2' & o' & Ed' & Eu' & _ & Hun); [lia|lia|exact HR|exact HG|eauto|].
      assert (d1' = d1) as -> by congruence. assert (s2' = s2 /\ o' = o) as [-> ->] by (split; congruence). clear Ed' Eu'.
      assert (ltu_set opc idm mapc compc p x t = Ok (with_tree t s2, o)) as E.
      { unfold ltu_set. apply on_tree_ok. rewrite (ubind_ok _ _ _ (lt_d t, lt_lz t) tt) by (apply uread_ok, assert_true, Nat.ltb_lt; exact Hp).
        cbv zeta. rewrite H2. rewrite (ubind_ok _ _ _ _ _ Es1). rewrite (ubind_ok _ _ s1 (d1, s1.2) tt); [exact Eu|]. apply uwrite_ok. rewrite Ed. reflexivity. }
      destruct o as [[]|].
      + eapply (step_unit t cells _ _ s2 (Some tt) (<[p := [x]]> cells) E HC); [apply insert_length|apply Hok; reflexivity|]. cbn. split; [lia|reflexivity].
      + eapply (step_unit t cells _ _ s2 None (<[p := x :: c]> cells) E HC); [apply insert_length|apply (Hun c Hc); intros z Hz; right; exact Hz|]. cbn. symmetry. apply alter_some. exact Hc.
    - eapply (step_unit t cells _ _ (lt_d t, lt_lz t) None cells); [|exact HC|reflexivity|exact H4|].
      + unfold ltu_set. apply on_tree_ok. apply ubind_unwound, uread_panic, assert_false, Nat.ltb_ge. exact Hp.
      + cbn. symmetry. apply alter_none. lia.
  Qed.

  Lemma apply_cells t cells p f : CInv t cells -> allowed t cells (LzApply p f) (ltu_step (LzApply p f) t).
  Proof.
    intros HC. pose proof HC as [H1 H2 H3 H4]. cbn [LazyUnwindModel.ltu_step].
    destruct (Nat.ltb_spec p (lt_n t)) as [Hp|Hp].
    - rewrite H2 in *. destruct (push_path_T e op idm mapping comp L ML (lt_log t) _ cells (p + 2 ^ lt_log t) H4) as (s1 & g & Es1 & HR & HG); [unfold leaf; lia|].
      destruct (lookup_lt_is_Some_2 cells p) as [c Hc]; [lia|].
      destruct (leaf_T e op idm mapping (lt_log t) s1 g cells p c Hc) as (v & tl & Ev & ->); [lia|exact HR|exact HG|].
      set (c := v :: tl) in *.
      destruct (write_T e op idm mapping L opc O (lt_log t) s1 g cells p (mapping f v) (map (mapping f) c)) as (d1 & s2 & o & Ed & Eu & Hok & _); [lia|lia|exact HR|exact HG|cbn; eauto|].
      destruct (write_T e op idm mapping L opc O (lt_log t) s1 g cells p (mapping f v) (map (mapping f) c ++ c)) as (d1' & s2' & o' & Ed' & Eu' & _ & Hun); [lia|lia|exact HR|exact HG|cbn; eauto|].
      assert (d1' = d1) as -> by congruence. assert (s2' = s2 /\ o' = o) as [-> ->] by (split; congruence). clear Ed' Eu'.
      assert (ltu_apply opc idm mapc compc p f t = Ok (with_tree t s2, o)) as E.
      { unfold ltu_apply. apply on_tree_ok. rewrite (ubind_ok _ _ _ (lt_d t, lt_lz t) tt) by (apply uread_ok, assert_true, Nat.ltb_lt; exact Hp).
        cbv zeta. rewrite H2. rewrite (ubind_ok _ _ _ _ _ Es1). rewrite (ubind_ok _ _ s1 (d1, s1.2) tt); [exact Eu|]. apply uwrite_ok. rewrite Ev. cbn [mbind res_bind]. rewrite Ed. reflexivity. }
      destruct o as [[]|].
      + eapply (step_unit t cells _ _ s2 (Some tt) (<[p := map (mapping f) c]> cells) E HC); [apply insert_length|apply Hok; reflexivity|]. cbn [option_map lz_cells_step].
        split; [lia|]. symmetry. apply alter_some. exact Hc.
      + eapply (step_unit t cells _ _ s2 None (<[p := map (mapping f) c ++ c]> cells) E HC); [apply insert_length|apply (Hun c Hc); intros z Hz; apply elem_of_app; right; exact Hz|]. cbn [option_map lz_cells_step].
        symmetry. apply (alter_some (fun c => map (mapping f) c ++ c)). exact Hc.
    - eapply (step_unit t cells _ _ (lt_d t, lt_lz t) None cells); [|exact HC|reflexivity|exact H4|].
      + unfold ltu_apply. apply on_tree_ok. apply ubind_unwound, uread_panic, assert_false, Nat.ltb_ge. exact Hp.
      + cbn. symmetry. apply alter_none. lia.
  Qed.

  Lemma push_bounds_T log s cells l r (which : bool) : TInv log s cells -> 2 ^ log <= l <= 2 * 2 ^ log -> 2 ^ log <= r <= 2 * 2 ^ log ->
    exists s' g, ufor (rev (range_incl 1 log)) (fun i _ => if which then ltu_push_bounds idm mapc compc (2 ^ log) l r i else ltu_push_bounds' idm mapc compc (2 ^ log) l r i) tt s = Ok (s', Some tt) /\
      Rel (2 ^ log) s' g /\ GR log g (garr log cells) (bnd l r).
  Proof.
    intros (g & C & HR & HG) Hl Hr.
    destruct (push_bounds_ok _ _ _ _ _ GL GML log g _ C l r which HG Hl Hr) as (g' & E & HG').
    assert (simT e op (2 ^ log) (ufor (rev (range_incl 1 log)) (fun i _ => if which then ltu_push_bounds idm mapc compc (2 ^ log) l r i else ltu_push_bounds' idm mapc compc (2 ^ log) l r i) tt)
      (rfor (rev (range_incl 1 log)) (if which then lt_push_bounds [idm] gmap gcomp (2 ^ log) l r else lt_push_bounds' [idm] gmap gcomp (2 ^ log) l r))) as Hsim.
    { apply (simT_for e op (2 ^ log) (rev (range_incl 1 log)) (fun i => if which then ltu_push_bounds idm mapc compc (2 ^ log) l r i else ltu_push_bounds' idm mapc compc (2 ^ log) l r i)).
      intros i. destruct which; [apply simT_push_bounds|apply simT_push_bounds']; assumption. }
    destruct (Hsim s g g' HR E) as (s' & Es & HR'). exists s', g'. auto.
  Qed.

  Lemma apply_range_cells t cells l r f : CInv t cells -> allowed t cells (LzApplyRange l r f) (ltu_step (LzApplyRange l r f) t).
  Proof.
    intros HC. pose proof HC as [H1 H2 H3 H4]. cbn [LazyUnwindModel.ltu_step].
    destruct ((l <=? r) && (r <=? lt_n t)) eqn:Hb.
    - pose proof Hb as Hb'. apply andb_true_iff in Hb as [Hl Hr]. apply Nat.leb_le in Hl, Hr. destruct (Nat.eqb_spec l r) as [->|Hne].
      + eapply (step_unit t cells _ _ (lt_d t, lt_lz t) (Some tt) cells); [|exact HC|reflexivity|exact H4|].
        * unfold ltu_apply_range. apply on_tree_ok. rewrite (ubind_ok _ _ _ (lt_d t, lt_lz t) tt) by (apply uread_ok, assert_true; exact Hb'). rewrite Nat.eqb_refl. reflexivity.
        * cbn. split; [lia|]. symmetry. apply map_range_empty.
      + rewrite H2 in *. destruct (push_bounds_T (lt_log t) _ cells (l + 2 ^ lt_log t) (r + 2 ^ lt_log t) false H4) as (s1 & g & Es1 & HR & HG); [lia|lia|].
        destruct (apply_range_T e op idm mapping comp L ML opc O (lt_log t) s1 g cells l r f []) as (s2 & o & Es2 & Hok & _); [lia|lia|exact HR|exact HG|].
        destruct (apply_range_T e op idm mapping comp L ML opc O (lt_log t) s1 g cells l r f [idm]) as (s2' & o' & Es2' & _ & Hun); [lia|lia|exact HR|exact HG|].
        assert (s2' = s2 /\ o' = o) as [-> ->] by (split; congruence). clear Es2'.
        assert (ltu_apply_range opc idm mapc compc l r f t = Ok (with_tree t s2, o)) as E.
        { unfold ltu_apply_range. apply on_tree_ok. rewrite (ubind_ok _ _ _ (lt_d t, lt_lz t) tt) by (apply uread_ok, assert_true; exact Hb').
          rewrite (proj2 (Nat.eqb_neq l r) Hne). cbv zeta. rewrite H2. rewrite (ubind_ok _ _ _ _ _ Es1). exact Es2. }
        destruct o as [[]|].
        * eapply (step_unit t cells _ _ s2 (Some tt) _ E HC); [|apply Hok; reflexivity|]; [apply imap_length|]. cbn [option_map lz_cells_step].
          split; [lia|]. apply map_range_ext. intros c. unfold gmapc. cbn. apply app_nil_r.
        * eapply (step_unit t cells _ _ s2 None _ E HC); [|apply Hun; reflexivity|]; [apply imap_length|]. cbn [option_map lz_cells_step].
          rewrite <- H1, Hb'. apply map_range_ext. intros c. unfold gmapc. cbn. rewrite app_nil_r. f_equal.
          rewrite <- (map_id c) at 2. apply map_ext. intros x. apply (mpl_id _ _ _ _ ML).
    - eapply (step_unit t cells _ _ (lt_d t, lt_lz t) None cells); [|exact HC|reflexivity|exact H4|].
      + unfold ltu_apply_range. apply on_tree_ok. apply ubind_unwound, uread_panic, assert_false. exact Hb.
      + cbn. rewrite <- H1, Hb. reflexivity.
  Qed.

  Lemma step_ends {A} t cells o (m : uw (lazytree S F) A) (f : A -> lz_out S) (n : lazytree S F -> uw (tree S F) A) : m = on_tree n -> CInv t cells ->
    ends (fun a s' => lz_cells_step e op mapping cells o (Some (f a)) cells /\ TInv (lt_log t) s' cells) (fun s' => lz_cells_step e op mapping cells o None cells /\ TInv (lt_log t) s' cells)
      (n t (lt_d t, lt_lz t)) -> allowed t cells o ((x <~ m ;~ uret (f x)) t).
  Proof.
    intros -> HC HE. apply ends_inv in HE as (s & out & E & H). apply on_tree_ok in E. exists (with_tree t s), (option_map f out), cells.
    destruct out as [a|]; destruct H as [Hs HT]; (split; [|split; [exact Hs|apply CInv_same; assumption]]).
    - rewrite (ubind_ok _ _ _ _ _ E). reflexivity.
    - apply ubind_unwound. exact E.
  Qed.

  Lemma get_cells t cells p : CInv t cells -> allowed t cells (LzGet p) (ltu_step (LzGet p) t).
  Proof.
    intros HC. pose proof HC as [H1 H2 H3 H4]. eapply step_ends; [reflexivity|exact HC|]. apply ends_bind, ends_read.
    destruct (Nat.ltb_spec p (lt_n t)) as [Hp|Hp].
    - left. exists tt. split; [reflexivity|]. cbv zeta. rewrite H2 in *.
      destruct (push_path_T e op idm mapping comp L ML (lt_log t) _ cells (p + 2 ^ lt_log t) H4) as (s1 & g & Es1 & HR & HG); [unfold leaf; lia|].
      destruct (lookup_lt_is_Some_2 cells p) as [c Hc]; [lia|].
      destruct (leaf_T e op idm mapping (lt_log t) s1 g cells p c Hc) as (v & tl & Ev & ->); [lia|exact HR|exact HG|].
      apply ends_bind. apply (ends_ok _ _ _ _ _ Es1). apply ends_read. left. exists v. split; [exact Ev|]. cbn. split; [eauto|]. eexists _, _. eauto.
    - right. split; [reflexivity|]. cbn. split; [split; [reflexivity|lia]|exact H4].
  Qed.

  Lemma prod_cells t cells l r : CInv t cells -> allowed t cells (LzProd l r) (ltu_step (LzProd l r) t).
  Proof.
    intros HC. pose proof HC as [H1 H2 H3 H4]. eapply step_ends; [reflexivity|exact HC|]. apply ends_bind, ends_read.
    destruct ((l <=? r) && (r <=? lt_n t)) eqn:Hb.
    - left. exists tt. split; [reflexivity|]. apply andb_true_iff in Hb as [Hl Hr]. apply Nat.leb_le in Hl, Hr. destruct (Nat.eqb_spec l r) as [->|Hne].
      + cbn. split; [split; [reflexivity|]|exact H4]. split; [lia|]. rewrite slice_nil by lia. apply some_prod_nil.
      + cbv zeta. rewrite H2 in *. pose proof (pow2_pos (lt_log t)) as Hsz.
        destruct (push_bounds_T (lt_log t) _ cells (l + 2 ^ lt_log t) (r + 2 ^ lt_log t) true H4) as (s1 & g & Es1 & HR & HG); [lia|lia|].
        apply ends_bind. apply (ends_ok _ _ _ _ _ Es1).
        destruct (prod_loop_ok _ _ _ _ GL (lt_log t) g _ _ (l + 2 ^ lt_log t) (r + 2 ^ lt_log t) HG) as (wl & wr & Ew & Hw); [intros; exact Logic.I|lia|lia|].
        assert (TInv (lt_log t) s1 cells) as HT by (eexists _, _; eauto).
        apply ends_read. destruct (sim_prod_loop e op L opc O (2 ^ lt_log t) s1 g (r + 2 ^ lt_log t + 1) HR (l + 2 ^ lt_log t) (r + 2 ^ lt_log t) e e [] [] wl wr ltac:(lia) (some_prod_nil e op) (some_prod_nil e op) Ew) as [Ep|(x & y & Exy & Hx & Hy)].
        * right. rewrite Ep. split; [reflexivity|]. split; [split; [reflexivity|exact Logic.I]|exact HT].
        * rewrite Exy. cbn [mbind res_bind]. destruct (opc_cases x y) as [Eo|Eo]; [left|right; split; [exact Eo|]; split; [split; [reflexivity|exact Logic.I]|exact HT]].
          eexists. split; [exact Eo|]. split; [|exact HT]. cbn [lz_cells_step]. split; [reflexivity|]. split; [lia|].
          rewrite <- (WP_garr e (lt_log t) cells l r) by lia. rewrite (Nat.add_comm (2 ^ lt_log t) l), (Nat.add_comm (2 ^ lt_log t) r), <- Hw. apply some_prod_app; assumption.
    - right. split; [reflexivity|]. cbn. auto.
  Qed.

  Lemma all_prod_cells t cells : CInv t cells -> allowed t cells LzAllProd (ltu_step LzAllProd t).
  Proof.
    intros HC. pose proof HC as [H1 H2 H3 H4]. destruct H4 as (g & C & HR & HG). cbn [LazyUnwindModel.ltu_step]. pose proof (pow2_pos (lt_log t)) as Hsz.
    assert (node (lt_log t) (lt_log t) 1) as Hn by (split; [lia|lia]).
    pose proof (R_read _ _ _ _ (lt_log t) g _ all C (lt_log t) 1 HG Hn Logic.I) as Hv. rewrite Nat.mul_1_l in Hv.
    replace ((1 + 1) * 2 ^ lt_log t) with (2 ^ lt_log t + 2 ^ lt_log t) in Hv by lia. rewrite (WP_garr_pad e (lt_log t) cells) in Hv by lia.
    assert (vget g.1 1 = Ok (cells ++ replicate (2 ^ lt_log t - length cells) [e])) as Hw. { apply Hv. intros j x [Hj _] [Hj' _]. lia. }
    destruct (Rel_read e op _ _ g 1 _ HR Hw) as (v & Ev & Ev' & Ew').
    pose proof (re_rep _ _ _ _ _ HR 1 v _ ltac:(lia) Ev' Ew') as [_ Hsp]. apply sp_pad in Hsp; [|exact L].
    exists t, (Some (LzVal v)), cells. split; [|split; [|exact HC]].
    - rewrite (ubind_ok _ _ t t v); [reflexivity|]. apply uread_ok. exact Ev.
    - cbn. split; [reflexivity|]. eauto.
  Qed.

  Lemma max_right_cells t cells l p : CInv t cells -> allowed t cells (LzMaxRight l p) (ltu_step (LzMaxRight l p) t).
  Proof.
    intros HC. pose proof HC as [H1 H2 H3 H4]. eapply step_ends; [reflexivity|exact HC|]. apply ends_bind, ends_read.
    assert (TInv (lt_log t) (lt_d t, lt_lz t) cells) as HT by exact H4.
    destruct (Nat.leb_spec l (lt_n t)) as [Hl|Hl]; [|right; split; [reflexivity|]; cbn; auto]. left. exists tt. split; [reflexivity|].
    apply ends_bind, ends_read. destruct (p e); [|right; split; [reflexivity|]; cbn; auto]. left. exists tt. split; [reflexivity|].
    destruct (Nat.eqb_spec l (lt_n t)) as [->|Hne].
    - cbn. split; [split; [reflexivity|lia]|exact H4].
    - cbv zeta. rewrite H2 in *.
      destruct (push_path_T e op idm mapping comp L ML (lt_log t) _ cells (l + 2 ^ lt_log t) H4) as (s1 & g & Es1 & HR & HG); [unfold leaf; lia|].
      apply ends_bind. apply (ends_ok _ _ _ _ _ Es1). eapply ends_mono; [apply (max_right_ends (lt_log t) s1 cells)| |].
      + eexists _, _. eauto.
      + unfold leaf. lia.
      + lia.
      + intros q s' [Hq HT']. split; [|exact HT']. cbn. split; [reflexivity|]. lia.
      + intros s' HT'. split; [|exact HT']. cbn. auto.
  Qed.

  Lemma min_left_cells t cells r p : CInv t cells -> allowed t cells (LzMinLeft r p) (ltu_step (LzMinLeft r p) t).
  Proof.
    intros HC. pose proof HC as [H1 H2 H3 H4]. eapply step_ends; [reflexivity|exact HC|]. apply ends_bind, ends_read.
    assert (TInv (lt_log t) (lt_d t, lt_lz t) cells) as HT by exact H4.
    destruct (Nat.leb_spec r (lt_n t)) as [Hl|Hl]; [|right; split; [reflexivity|]; cbn; auto]. left. exists tt. split; [reflexivity|].
    apply ends_bind, ends_read. destruct (p e); [|right; split; [reflexivity|]; cbn; auto]. left. exists tt. split; [reflexivity|].
    destruct (Nat.eqb_spec r 0) as [->|Hne].
    - cbn. split; [split; [reflexivity|lia]|exact H4].
    - cbv zeta. rewrite H2 in *. apply ends_bind, ends_read. left. exists (r + 2 ^ lt_log t - 1). split; [apply nsub_ok; lia|].
      destruct (push_path_T e op idm mapping comp L ML (lt_log t) _ cells (r + 2 ^ lt_log t - 1) H4) as (s1 & g & Es1 & HR & HG); [unfold leaf; lia|].
      apply ends_bind. apply (ends_ok _ _ _ _ _ Es1). eapply ends_mono; [apply (min_left_ends (lt_log t) s1 cells)| |].
      + eexists _, _. eauto.
      + unfold leaf. lia.
      + intros q s' [Hq HT']. split; [|exact HT']. cbn. split; [reflexivity|]. lia.
      + intros s' HT'. split; [|exact HT']. cbn. auto.
  Qed.

  Lemma step_cells t cells o : CInv t cells -> allowed t cells o (ltu_step o t).
  Proof.
    intros HC. destruct o; [apply set_cells|apply get_cells|apply prod_cells|apply all_prod_cells|apply apply_cells|apply apply_range_cells|apply max_right_cells|apply min_left_cells]; exact HC.
  Qed.

  Lemma run_cells ops : forall t cells, CInv t cells ->
    exists t' outs cells', urun ltu_step t ops = Ok (t', outs) /\ cells_run (lz_cells_step e op mapping) cells ops outs cells' /\ CInv t' cells'.
  Proof.
    induction ops as [|o ops IH]; intros t cells HC.
    - exists t, [], cells. cbn. auto.
    - destruct (step_cells t cells o HC) as (t1 & out & cells1 & E & Hs & HC1). destruct (IH t1 cells1 HC1) as (t2 & outs & cells2 & E2 & Hr & HC2).
      exists t2, (out :: outs), cells2. cbn [urun]. rewrite E. cbn [mbind res_bind]. rewrite E2. cbn [mbind res_bind].
      split; [reflexivity|]. split; [|exact HC2]. cbn. eauto.
  Qed.
End Ops.
