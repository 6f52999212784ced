(** The searches with an effectful predicate are binary searches. *)
From Verif Require Import Prelude UtilModel UtilProof ArraySpec FenwickSpec FenwickModel FenwickProof
  SegtreeSpec SegtreeModel SegtreeProof PrefixRelProof BisectSpec EffectModel.

Lemma rfor_app {A S} (l l' : list A) (b : A -> S -> res S) s :
  rfor (l ++ l') b s = (s ← rfor l b s; rfor l' b s).
Proof.
  revert s. induction l as [|x l IH]; intros s; [reflexivity|]. cbn [app rfor].
  destruct (b x s); cbn; [apply IH|reflexivity|reflexivity].
Qed.

Ltac open1 step := match goal with |- context [step ?x] =>
  let y := eval cbv beta iota zeta delta [step] in (step x) in change (step x) with y end.
Ltac open2 step := match goal with |- context [step ?x ?z] =>
  let y := eval cbv beta iota zeta delta [step] in (step x z) in change (step x z) with y end.

(** ** Fenwick tree *)
Section Fenwick.
  Context {T : Type} (zero : T) (add : T -> T -> T) (L : monoid_laws zero add).
  Context (t : fenwick T) (a : list T) (I : FInv zero add t a).
  Context {σ : Type} (pred : σ -> T -> res (σ * bool)).
  Local Notation P := (mprod zero add).
  Local Notation n := (length a).
  Local Notation ask := (fun k st => pred st (P (slice a 0 k))).

  Lemma fw_search_bisect (i : nat) : forall pos st, pos <= n -> (exists q, pos = 2 ^ i * q) ->
    bisect ask i st pos (Nat.min (n + 1) (pos + 2 ^ i))
      ('(pos, _, st) ← rfor (rev (seq 0 i)) (fun i '(pos, sum, st) =>
            let next := pos + 2 ^ i in
            if next <=? fw_n t then
              x ← vget (fw_ary t) (next - 1);
              '(st, b) ← pred st (add sum x);
              if b : bool then Ok (next, add sum x, st) else Ok (pos, sum, st)
            else Ok (pos, sum, st)) (pos, P (slice a 0 pos), st);
       Ok (st, pos)).
  Proof.
    match goal with |- context [rfor _ ?b _] => set (body := b) end.
    induction i as [|i IH]; intros pos st Hpos Hq.
    - rewrite Nat.pow_0_r, Nat.min_r by lia. cbn [seq rev rfor mbind res_bind]. apply bi_done.
    - rewrite seq_S, rev_app_distr. cbn [rev app rfor Nat.add].
      destruct Hq as [q Hq]. pose proof (pow2_pos i) as Hp2.
      assert (2 ^ S i = 2 * 2 ^ i) as E by apply Nat.pow_succ_r'.
      open2 body. rewrite (fi_n _ _ _ _ I).
      destruct (Nat.leb_spec (pos + 2 ^ i) n) as [Hle|Hgt].
      + pose proof (fi_node _ _ _ _ I (pos + 2 ^ i) ltac:(lia)) as Hnode.
        rewrite (lowbit_pos_bit i pos) in Hnode by (exists q; rewrite Nat.add_1_r; exact Hq).
        replace (pos + 2 ^ i - 2 ^ i) with pos in Hnode by lia.
        rewrite (vget_ok _ _ _ Hnode). cbn [mbind res_bind].
        rewrite <- (mprod_app _ _ L), slice_app by lia.
        destruct (pred st (P (slice a 0 (pos + 2 ^ i)))) as [[st' [|]]| |] eqn:Hp; cbn [mbind res_bind].
        * eapply (bi_true _ _ _ st' _ (pos + 2 ^ i)); [lia|exact Hp|].
          replace (Nat.min (n + 1) (pos + 2 ^ S i)) with (Nat.min (n + 1) (pos + 2 ^ i + 2 ^ i)) by lia.
          apply IH; [lia|]. exists (2 * q + 1). lia.
        * eapply (bi_false _ _ _ st' _ (pos + 2 ^ i)); [lia|exact Hp|].
          replace (pos + 2 ^ i) with (Nat.min (n + 1) (pos + 2 ^ i)) at 1 by lia.
          apply IH; [lia|]. exists (2 * q). lia.
        * eapply (bi_panic _ _ _ _ (pos + 2 ^ i)); [lia|exact Hp].
        * eapply (bi_diverge _ _ _ _ (pos + 2 ^ i)); [lia|exact Hp].
      + cbn [mbind res_bind]. apply (bisect_mono _ i); [lia|].
        replace (Nat.min (n + 1) (pos + 2 ^ S i)) with (Nat.min (n + 1) (pos + 2 ^ i)) by lia.
        apply IH; [lia|]. exists (2 * q). lia.
  Qed.

  Lemma partition_point_bisect st : 0 < n -> (Z.of_nat n < 2 ^ 64)%Z ->
    bisect ask (Nat.log2 n + 1) st 0 (n + 1) (fw_partition_point_fx zero add t pred st).
  Proof.
    intros Hn Hn64. unfold fw_partition_point_fx. rewrite (fi_n _ _ _ _ I), lg_spec by lia.
    cbn [mbind res_bind].
    assert (Z.to_nat (Z.log2 (Z.of_nat n)) = Nat.log2 n) as ->.
    { symmetry. apply Nat.log2_unique; [lia|].
      destruct (Z.log2_spec (Z.of_nat n)) as [H1 H2]; [lia|].
      pose proof (Z.log2_nonneg (Z.of_nat n)).
      split.
      - apply Nat2Z.inj_le. rewrite Nat2Z.inj_pow, Z2Nat.id by lia. exact H1.
      - apply Nat2Z.inj_lt. rewrite Nat2Z.inj_pow, (Nat2Z.inj_succ (Z.to_nat _)), Z2Nat.id by lia. exact H2. }
    pose proof (fw_search_bisect (Nat.log2 n + 1) 0 st ltac:(lia) ltac:(exists 0; lia)) as H.
    destruct (Nat.log2_spec n Hn) as [_ Hlt]. rewrite Nat.min_l in H by (rewrite (Nat.add_1_r (Nat.log2 n)); lia).
    rewrite (fi_n _ _ _ _ I) in H. rewrite (Nat.add_1_r (Nat.log2 n)) in H |- *. rewrite slice_nil in H by lia. exact H.
  Qed.

  Lemma partition_point_fx_empty st : n = 0 -> fw_partition_point_fx zero add t pred st = Panic.
  Proof. intros H. unfold fw_partition_point_fx. rewrite (fi_n _ _ _ _ I), H. reflexivity. Qed.
End Fenwick.

(** ** Segment tree *)
Section Segtree.
  Context {S : Type} (e : S) (op : S -> S -> S) (L : monoid_laws e op).
  Context (t : segtree S) (a : list S) (I : Inv e op t a).
  Context {σ : Type} (f : σ -> S -> res (σ * bool)).
  Local Notation P := (mprod e op).
  Local Notation n := (sg_n t).
  Local Notation size := (sg_size t).
  Local Notation d := (sg_d t).
  Local Notation lg := (sg_log t).
  Local Notation askR l0 := (fun k st => f st (P (slice a l0 k))).
  Local Notation askL r0 := (fun j st => f st (P (slice a (r0 - j) r0))).

  Lemma leaf_slice_any l k : l <= n -> l <= k <= size -> P (slice d (size + l) (size + k)) = P (slice a l k).
  Proof.
    intros Hl Hk. destruct (decide (k <= n)) as [Hkn|Hkn].
    - apply (leaf_slice e op t a I). lia.
    - rewrite (leaf_slice_pad e op L t a I) by lia. f_equal. unfold slice.
      pose proof (inv_n _ _ _ _ I) as Hn. rewrite !take_ge by (rewrite drop_length; lia). reflexivity.
  Qed.

  Lemma descend_right_bisect l0 : l0 <= n -> forall h l sm st,
    size <= l * 2 ^ h -> (l + 1) * 2 ^ h <= 2 * size -> size + l0 <= l * 2 ^ h ->
    sm = P (slice d (size + l0) (l * 2 ^ h)) ->
    bisect (askR l0) h st (l * 2 ^ h - size) ((l + 1) * 2 ^ h - size) (st_descend_right_fx op d size f l sm st).
  Proof.
    intros Hl0 h l sm st Hlo Hhi Hl0l Hsm. unfold st_descend_right_fx.
    pose proof (size_pos e op t a I) as Hsz.
    match goal with |- context [rloop _ ?s _] => set (step := s) end.
    assert (h < size + 1) as Hfuel.
    { apply (height_bound t h l); [|exact Hhi]. pose proof (pow2_pos h). nia. }
    revert Hfuel. generalize (size + 1) as fuel. intros fuel. revert fuel l sm st Hlo Hhi Hl0l Hsm.
    induction h as [|h IH]; intros [|fuel] l sm st Hlo Hhi Hl0l Hsm Hfuel; [lia| |lia|]; cbn [rloop].
    - open1 step. rewrite Nat.pow_0_r, !Nat.mul_1_r in *.
      destruct (Nat.ltb_spec l size); [lia|]. cbn [mbind res_bind]. rewrite nsub_ok by lia. cbn [mbind res_bind].
      replace (l + 1 - size) with (l - size + 1) by lia. apply bi_done.
    - open1 step. pose proof (pow2_pos h) as Hph. rewrite Nat.pow_succ_r' in *.
      destruct (Nat.ltb_spec l size); [|nia].
      pose proof (node_prod e op L t a I h (2 * l) ltac:(nia) ltac:(nia)) as Hn.
      rewrite (vget_ok _ _ _ Hn). cbn [mbind res_bind]. subst sm.
      replace (l * (2 * 2 ^ h)) with (2 * l * 2 ^ h) in * by nia.
      replace ((l + 1) * (2 * 2 ^ h)) with ((2 * l + 2) * 2 ^ h) in * by nia.
      rewrite <- (mprod_app _ _ L), slice_app by nia.
      set (k := (2 * l + 1) * 2 ^ h - size).
      assert (P (slice d (size + l0) ((2 * l + 1) * 2 ^ h)) = P (slice a l0 k)) as Ek.
      { rewrite <- leaf_slice_any by (unfold k; nia). do 2 f_equal. unfold k. nia. }
      destruct (f st (P (slice d (size + l0) ((2 * l + 1) * 2 ^ h)))) as [[st' [|]]| |] eqn:Hf; cbn [mbind res_bind].
      + eapply (bi_true _ _ _ st' _ k); [unfold k; nia|rewrite <- Ek; exact Hf|].
        replace ((2 * l + 2) * 2 ^ h) with ((2 * l + 1 + 1) * 2 ^ h) by nia.
        apply IH; [nia|nia|nia|reflexivity|lia].
      + eapply (bi_false _ _ _ st' _ k); [unfold k; nia|rewrite <- Ek; exact Hf|].
        apply IH; [nia|nia|nia|reflexivity|lia].
      + eapply (bi_panic _ _ _ _ k); [unfold k; nia|rewrite <- Ek; exact Hf].
      + eapply (bi_diverge _ _ _ _ k); [unfold k; nia|rewrite <- Ek; exact Hf].
  Qed.

  (** The result handed back when the search ends at [r]. *)
  Definition clip (n size : nat) (x : σ * nat) : σ * nat := (x.1, if x.2 =? size then n else x.2).

  Lemma bisect_clip ask c st lo hi o : bisect ask c st lo hi o -> hi <= size -> clip n size <$> o = o.
  Proof.
    intros B Hhi. destruct o as [[st' r]| |]; [|reflexivity|reflexivity].
    apply bisect_range in B. unfold clip. cbn. destruct (Nat.eqb_spec r size); [lia|reflexivity].
  Qed.

  Lemma max_right_bisect l0 st : l0 < n ->
    exists o, bisect (askR l0) (2 * lg + 1) st l0 (size + 1) o /\
      rloop (2 * size + 1) (st_max_right_step_fx op d n size f) (l0 + size, e, st) = clip n size <$> o.
  Proof.
    intros Hl0. pose proof (size_pos e op t a I) as Hsz. pose proof (inv_le _ _ _ _ I) as Hns.
    pose proof (inv_size _ _ _ _ I) as Hsize.
    assert (forall fuel m l sm st h g c, m < fuel -> m + l * 2 ^ h = 2 * size -> 0 < m -> size + l0 <= l * 2 ^ h ->
        sm = P (slice d (size + l0) (l * 2 ^ h)) -> (g = h \/ g = h + 1 /\ Nat.even l = true) -> 2 * lg + 1 <= c + g ->
        exists o, bisect (askR l0) c st (l * 2 ^ h - size) (size + 1) o /\
          rloop fuel (st_max_right_step_fx op d n size f) (l, sm, st) = clip n size <$> o) as G.
    2:{ destruct (G (2 * size + 1) (size - l0) (l0 + size) e st 0 0 (2 * lg + 1)) as (o & B & E);
          rewrite ?Nat.pow_0_r, ?Nat.mul_1_r; try lia.
        - rewrite slice_nil by lia. reflexivity.
        - exists o. split; [|exact E]. rewrite Nat.pow_0_r, Nat.mul_1_r in B.
          replace (l0 + size - size) with l0 in B by lia. exact B. }
    clear st. intros fuel. induction fuel as [|fuel IH]; intros m l sm st h g c Hm H1 H2 H3 -> Hg Hc; [lia|].
    set (step := st_max_right_step_fx op d n size f) in *. cbn [rloop].
    match goal with |- context [step ?x] =>
      let y := eval cbv beta iota zeta delta [step st_max_right_step_fx] in (step x) in change (step x) with y end.
    assert (0 < l) as Hl by nia.
    destruct (strip_even_spec l Hl) as (k & l' & -> & Hll & Hodd). cbn [mbind res_bind].
    assert (g <= k + h) as Hgk.
    { destruct Hg as [->|[-> Hev]]; [lia|]. destruct k as [|k]; [|lia]. exfalso.
      rewrite Nat.pow_0_r, Nat.mul_1_r in Hll. subst l'. rewrite <- Nat.negb_even, Hev in Hodd. discriminate. }
    assert (l * 2 ^ h = l' * 2 ^ (k + h)) as E by (rewrite Nat.pow_add_r; nia).
    clear Hg. rewrite E in *. clear E. generalize dependent (k + h). clear k h l Hl Hll.
    intros h H1 H3 Hgk. pose proof (pow2_pos h) as Hph.
    assert (0 < l') as Hl' by nia.
    assert (h < lg + 1) as Hh.
    { apply (Nat.pow_lt_mono_r_iff 2); [lia|]. rewrite Nat.add_1_r, Nat.pow_succ_r', <- Hsize. nia. }
    assert (exists q, 2 * size = q * 2 ^ h) as [q Hq].
    { exists (2 ^ (lg + 1 - h)). rewrite <- Nat.pow_add_r.
      replace (lg + 1 - h + h) with (Datatypes.S lg) by lia.
      rewrite Nat.pow_succ_r', <- Hsize. reflexivity. }
    assert ((l' + 1) * 2 ^ h <= 2 * size) as Hhi.
    { assert (l' < q) by (apply (Nat.mul_lt_mono_pos_r (2 ^ h)); lia).
      rewrite Hq. apply Nat.mul_le_mono_r. lia. }
    pose proof (node_prod e op L t a I h l' ltac:(lia) Hhi) as Hn.
    rewrite (vget_ok _ _ _ Hn). cbn [mbind res_bind].
    rewrite <- (mprod_app _ _ L), slice_app by nia.
    set (k := (l' + 1) * 2 ^ h - size).
    assert (P (slice d (size + l0) ((l' + 1) * 2 ^ h)) = P (slice a l0 k)) as Ek.
    { rewrite <- leaf_slice_any by (unfold k; nia). do 2 f_equal. unfold k. nia. }
    assert (l' * 2 ^ h - size < k < size + 1) as Hk by (unfold k; nia).
    destruct c as [|c]; [lia|].
    destruct (f st (P (slice d (size + l0) ((l' + 1) * 2 ^ h)))) as [[st' [|]]| |] eqn:Hf; cbn [mbind res_bind negb].
    - destruct (Nat.eqb_spec (lowbit (l' + 1)) (l' + 1)) as [Hp|Hnp]; cbn [negb].
      + destruct (lowbit_eq_pow2 (l' + 1)) as [j Hj]; [lia|exact Hp|].
        assert (size < (l' + 1) * 2 ^ h) as Hgt by nia.
        assert ((l' + 1) * 2 ^ h = 2 * size) as E.
        { rewrite Hj in *. rewrite <- Nat.pow_add_r in *.
          assert (lg < j + h) as G1.
          { apply (Nat.pow_lt_mono_r_iff 2); [lia|]. rewrite <- Hsize. exact Hgt. }
          assert (j + h <= Datatypes.S lg) as G2.
          { apply (Nat.pow_le_mono_r_iff 2); [lia|]. rewrite Nat.pow_succ_r', <- Hsize. lia. }
          replace (j + h) with (Datatypes.S lg) by lia.
          rewrite Nat.pow_succ_r', <- Hsize. reflexivity. }
        exists (Ok (st', size)). split.
        * eapply (bi_true _ _ _ st' _ k); [exact Hk|rewrite <- Ek; exact Hf|].
          replace k with size by (unfold k; lia). apply bi_done.
        * unfold clip. cbn. rewrite Nat.eqb_refl. reflexivity.
      + assert ((l' + 1) * 2 ^ h <> 2 * size) as Hne2.
        { intros E. apply Hnp.
          assert (l' + 1 = 2 ^ (Datatypes.S lg - h)) as ->.
          { apply (Nat.mul_cancel_r _ _ (2 ^ h)); [lia|]. rewrite E, <- Nat.pow_add_r.
            replace (Datatypes.S lg - h + h) with (Datatypes.S lg) by lia.
            rewrite Nat.pow_succ_r', <- Hsize. reflexivity. }
          apply lowbit_pow2. }
        destruct (IH (2 * size - (l' + 1) * 2 ^ h) (l' + 1) (P (slice d (size + l0) ((l' + 1) * 2 ^ h))) st' h (h + 1) c)
          as (o & B & E); [nia|nia|nia|nia|reflexivity| |lia|].
        { right. split; [reflexivity|]. rewrite Nat.add_1_r, Nat.even_succ. exact Hodd. }
        exists o. split; [|exact E].
        eapply (bi_true _ _ _ st' _ k); [exact Hk|rewrite <- Ek; exact Hf|exact B].
    - pose proof (descend_right_bisect l0 ltac:(lia) h l' _ st' ltac:(nia) Hhi ltac:(nia) eq_refl) as B.
      eexists. split.
      + eapply (bi_false _ _ _ st' _ k); [exact Hk|rewrite <- Ek; exact Hf|].
        apply (bisect_mono _ h); [lia|exact B].
      + rewrite (bisect_clip _ _ _ _ _ _ B) by lia. destruct (st_descend_right_fx _ _ _ _ _ _ _); reflexivity.
    - exists Panic. split; [|reflexivity]. eapply (bi_panic _ _ _ _ k); [exact Hk|rewrite <- Ek; exact Hf].
    - exists Diverge. split; [|reflexivity]. eapply (bi_diverge _ _ _ _ k); [exact Hk|rewrite <- Ek; exact Hf].
  Qed.

  (** ** min_left: the search is over the number of elements taken *)
  Definition from_right (r0 : nat) (x : σ * nat) : σ * nat := (x.1, r0 - x.2).

  Lemma descend_left_bisect r0 : r0 <= n -> forall h r sm st,
    size <= r * 2 ^ h -> (r + 1) * 2 ^ h <= size + r0 ->
    sm = P (slice d ((r + 1) * 2 ^ h) (size + r0)) ->
    exists o, bisect (askL r0) h st (size + r0 - (r + 1) * 2 ^ h) (size + r0 - r * 2 ^ h) o /\
      st_descend_left_fx op d size f r sm st = from_right r0 <$> o.
  Proof.
    intros Hr0 h r sm st Hlo Hhi Hsm. unfold st_descend_left_fx.
    pose proof (size_pos e op t a I) as Hsz. pose proof (inv_le _ _ _ _ I) as Hns.
    match goal with |- context [rloop _ ?s _] => set (step := s) end.
    assert (h < size + 1) as Hfuel.
    { apply (height_bound t h r); [pose proof (pow2_pos h); nia|lia]. }
    revert Hfuel. generalize (size + 1) as fuel. intros fuel. revert fuel r sm st Hlo Hhi Hsm.
    induction h as [|h IH]; intros [|fuel] r sm st Hlo Hhi Hsm Hfuel; [lia| |lia|]; cbn [rloop].
    - open1 step. rewrite Nat.pow_0_r, !Nat.mul_1_r in *.
      destruct (Nat.ltb_spec r size); [lia|]. cbn [mbind res_bind]. rewrite nsub_ok by lia. cbn [mbind res_bind].
      exists (Ok (st, size + r0 - (r + 1))). split.
      + replace (size + r0 - r) with (size + r0 - (r + 1) + 1) by lia. apply bi_done.
      + unfold from_right. cbn. do 2 f_equal. lia.
    - open1 step. pose proof (pow2_pos h) as Hph. rewrite Nat.pow_succ_r' in *.
      destruct (Nat.ltb_spec r size); [|nia].
      pose proof (node_prod e op L t a I h (2 * r + 1) ltac:(nia) ltac:(nia)) as Hn.
      rewrite (vget_ok _ _ _ Hn). cbn [mbind res_bind]. subst sm.
      replace (r * (2 * 2 ^ h)) with (2 * r * 2 ^ h) in * by nia.
      replace ((r + 1) * (2 * 2 ^ h)) with ((2 * r + 1 + 1) * 2 ^ h) in * by nia.
      rewrite <- (mprod_app _ _ L), slice_app by nia.
      set (k := size + r0 - (2 * r + 1) * 2 ^ h).
      assert (P (slice d ((2 * r + 1) * 2 ^ h) (size + r0)) = P (slice a (r0 - k) r0)) as Ek.
      { rewrite <- leaf_slice_any by (unfold k; nia). do 2 f_equal. unfold k. nia. }
      destruct (f st (P (slice d ((2 * r + 1) * 2 ^ h) (size + r0)))) as [[st' [|]]| |] eqn:Hf; cbn [mbind res_bind].
      + rewrite nsub_ok by lia. cbn [mbind res_bind]. replace (2 * r + 1 - 1) with (2 * r) by lia.
        destruct (IH fuel (2 * r) (P (slice d ((2 * r + 1) * 2 ^ h) (size + r0))) st') as (o & B & E);
          [nia|nia|reflexivity|lia|].
        exists o. split; [|exact E].
        eapply (bi_true _ _ _ st' _ k); [unfold k; nia|rewrite <- Ek; exact Hf|exact B].
      + destruct (IH fuel (2 * r + 1) (P (slice d ((2 * r + 1 + 1) * 2 ^ h) (size + r0))) st') as (o & B & E);
          [nia|nia|reflexivity|lia|].
        exists o. split; [|exact E].
        eapply (bi_false _ _ _ st' _ k); [unfold k; nia|rewrite <- Ek; exact Hf|exact B].
      + exists Panic. split; [|reflexivity]. eapply (bi_panic _ _ _ _ k); [unfold k; nia|rewrite <- Ek; exact Hf].
      + exists Diverge. split; [|reflexivity]. eapply (bi_diverge _ _ _ _ k); [unfold k; nia|rewrite <- Ek; exact Hf].
  Qed.

  Lemma min_left_bisect r0 st : 0 < r0 -> r0 <= n ->
    exists o, bisect (askL r0) (2 * lg + 1) st 0 (r0 + 1) o /\
      rloop (2 * size + 1) (st_min_left_step_fx op d size f) (r0 + size, e, st) = from_right r0 <$> o.
  Proof.
    intros Hr00 Hr0. pose proof (size_pos e op t a I) as Hsz. pose proof (inv_le _ _ _ _ I) as Hns.
    pose proof (inv_size _ _ _ _ I) as Hsize.
    assert (forall fuel m r sm st h g c, m < fuel -> m + size = r * 2 ^ h -> 0 < m -> h <= lg -> r * 2 ^ h <= size + r0 ->
        sm = P (slice d (r * 2 ^ h) (size + r0)) ->
        (g = h \/ g = h + 1 /\ (Nat.even r = true /\ lowbit r <> r)) -> 2 * lg + 1 <= c + g ->
        exists o, bisect (askL r0) c st (size + r0 - r * 2 ^ h) (r0 + 1) o /\
          rloop fuel (st_min_left_step_fx op d size f) (r, sm, st) = from_right r0 <$> o) as G.
    2:{ destruct (G (2 * size + 1) r0 (r0 + size) e st 0 0 (2 * lg + 1)) as (o & B & E);
          rewrite ?Nat.pow_0_r, ?Nat.mul_1_r; try lia.
        - rewrite slice_nil by lia. reflexivity.
        - exists o. split; [|exact E]. rewrite Nat.pow_0_r, Nat.mul_1_r in B.
          replace (size + r0 - (r0 + size)) with 0 in B by lia. exact B. }
    clear st. intros fuel. induction fuel as [|fuel IH]; intros m r sm st h g c Hm H1 H2 Hh H3 -> Hg Hc; [lia|].
    set (step := st_min_left_step_fx op d size f) in *. cbn [rloop].
    match goal with |- context [step ?x] =>
      let y := eval cbv beta iota zeta delta [step st_min_left_step_fx] in (step x) in change (step x) with y end.
    assert (1 < r) as Hr.
    { assert (2 ^ h <= size) by (rewrite Hsize; apply Nat.pow_le_mono_r; lia). nia. }
    rewrite nsub_ok by lia. cbn [mbind res_bind].
    destruct (strip_odd_spec (r - 1) ltac:(lia)) as (k & r' & -> & Hrr & Hr' & Hev). cbn [mbind res_bind].
    replace (r - 1 + 1) with r in Hrr by lia.
    assert (g <= k + h) as Hgk.
    { destruct Hg as [->|[-> [He Hlb]]]; [lia|]. destruct k as [|k]; [|lia]. exfalso.
      rewrite Nat.pow_0_r, Nat.mul_1_r in Hrr. destruct Hev as [->|Hev].
      - subst r. apply Hlb. exact (lowbit_pow2 1).
      - subst r. rewrite Nat.add_1_r, Nat.even_succ, <- Nat.negb_even, Hev in He. discriminate. }
    assert (r * 2 ^ h = (r' + 1) * 2 ^ (k + h)) as E by (rewrite Nat.pow_add_r; nia).
    clear Hg. rewrite E in *. clear E. generalize dependent (k + h). clear k h Hh r Hr Hrr.
    intros h H1 H3 Hgk. pose proof (pow2_pos h) as Hph.
    assert (h <= lg) as Hh.
    { apply (Nat.pow_le_mono_r_iff 2); [lia|]. rewrite <- Hsize. nia. }
    assert (size = 2 ^ (lg - h) * 2 ^ h) as Hq.
    { rewrite <- Nat.pow_add_r. replace (lg - h + h) with lg by lia. exact Hsize. }
    assert (size <= r' * 2 ^ h) as Hlo.
    { assert (2 ^ (lg - h) < r' + 1) by (apply (Nat.mul_lt_mono_pos_r (2 ^ h)); lia).
      rewrite Hq. apply Nat.mul_le_mono_r. lia. }
    pose proof (node_prod e op L t a I h r' Hlo ltac:(lia)) as Hn.
    rewrite (vget_ok _ _ _ Hn). cbn [mbind res_bind].
    rewrite <- (mprod_app _ _ L), slice_app by nia.
    set (k := size + r0 - r' * 2 ^ h).
    assert (P (slice d (r' * 2 ^ h) (size + r0)) = P (slice a (r0 - k) r0)) as Ek.
    { rewrite <- leaf_slice_any by (unfold k; nia). do 2 f_equal. unfold k. nia. }
    assert (size + r0 - (r' + 1) * 2 ^ h < k < r0 + 1) as Hk by (unfold k; nia).
    destruct c as [|c]; [lia|].
    destruct (f st (P (slice d (r' * 2 ^ h) (size + r0)))) as [[st' [|]]| |] eqn:Hf; cbn [mbind res_bind negb].
    - destruct (Nat.eqb_spec (lowbit r') r') as [Hp|Hnp]; cbn [negb].
      + destruct (lowbit_eq_pow2 r') as [j Hj]; [lia|exact Hp|].
        assert (r' * 2 ^ h < 2 * size) as Hgt by nia.
        assert (r' * 2 ^ h = size) as E.
        { rewrite Hj in *. rewrite <- Nat.pow_add_r in *.
          assert (lg <= j + h) as G1.
          { apply (Nat.pow_le_mono_r_iff 2); [lia|]. rewrite <- Hsize. lia. }
          assert (j + h < Datatypes.S lg) as G2.
          { apply (Nat.pow_lt_mono_r_iff 2); [lia|]. rewrite Nat.pow_succ_r', <- Hsize. exact Hgt. }
          replace (j + h) with lg by lia. symmetry. exact Hsize. }
        exists (Ok (st', r0)). split.
        * eapply (bi_true _ _ _ st' _ k); [exact Hk|rewrite <- Ek; exact Hf|].
          replace k with r0 by (unfold k; lia). apply bi_done.
        * unfold from_right. cbn. rewrite Nat.sub_diag. reflexivity.
      + assert (r' * 2 ^ h <> size) as Hne2.
        { intros E. apply Hnp. rewrite Hq in E. apply Nat.mul_cancel_r in E; [|lia].
          rewrite E. apply lowbit_pow2. }
        destruct (IH (r' * 2 ^ h - size) r' (P (slice d (r' * 2 ^ h) (size + r0))) st' h (h + 1) c)
          as (o & B & E); [nia|nia|nia|lia|nia|reflexivity| |lia|].
        { right. split; [reflexivity|]. split; [|exact Hnp].
          destruct Hev as [->|Hev]; [|exact Hev]. exfalso. apply Hnp. exact (lowbit_pow2 0). }
        exists o. split; [|exact E].
        eapply (bi_true _ _ _ st' _ k); [exact Hk|rewrite <- Ek; exact Hf|exact B].
    - destruct (descend_left_bisect r0 Hr0 h r' _ st' Hlo ltac:(lia) eq_refl) as (o & B & E).
      exists o. split.
      + eapply (bi_false _ _ _ st' _ k); [exact Hk|rewrite <- Ek; exact Hf|].
        apply (bisect_mono _ h); [lia|exact B].
      + rewrite E. destruct o; reflexivity.
    - exists Panic. split; [|reflexivity]. eapply (bi_panic _ _ _ _ k); [exact Hk|rewrite <- Ek; exact Hf].
    - exists Diverge. split; [|reflexivity]. eapply (bi_diverge _ _ _ _ k); [exact Hk|rewrite <- Ek; exact Hf].
  Qed.
End Segtree.
