(** The sparse table over an arbitrary operation, followed on the table over lists. *)
From Verif Require Import Prelude UtilModel UtilProof ArraySpec SparseSpec SparseModel SparseProof RelProof MixSpec.

Section Sparse.
  Context {T : Type} (op : T -> T -> T) (init : T).
  (** x is a product of the elements of m; None stands for the initial value. *)
  Definition frel (x : T) (m : list (option T)) : Prop := folds op (map (default init) m) x.
  Local Notation tabrel := (Forall2 (Forall2 frel)).

  Lemma frel_op x y m k : frel x m -> frel y k -> frel (op x y) (m ++ k).
  Proof. intros Hx Hy. unfold frel. rewrite map_app. constructor; assumption. Qed.
  Lemma vget2_rel data data2 c i : tabrel data data2 -> rel frel (vget2 data c i) (vget2 data2 c i).
  Proof. intros H. unfold vget2. eapply rel_bind; [apply rel_vget; exact H|]. intros r r2 Hr. apply rel_vget. exact Hr. Qed.
  Lemma vset2_rel data data2 c i x m : tabrel data data2 -> frel x m -> rel tabrel (vset2 data c i x) (vset2 data2 c i m).
  Proof.
    intros H Hx. unfold vset2. eapply rel_bind; [apply rel_vget; exact H|]. intros r r2 Hr.
    eapply rel_bind; [apply rel_vset; [exact Hr|exact Hx]|]. intros s s2 Hs. apply rel_vset; assumption.
  Qed.
  Lemma from_rel v v2 : Forall2 frel v v2 -> rel tabrel (sp_from v init op) (sp_from v2 [None] app).
  Proof.
    intros H. unfold sp_from. rewrite (Forall2_length _ _ _ H). apply rel_same. intros k. eapply rel_bind.
    - apply (rel_vset (Forall2 frel)); [|exact H]. apply Forall2_replicate. apply Forall2_replicate. constructor.
    - intros d d2 Hd. apply (rel_for tabrel); [|exact Hd]. intros c s s2 Hs. unfold sp_row. apply rel_same. intros b. apply (rel_for tabrel); [|exact Hs].
      intros i q q2 Hq. eapply rel_bind; [apply vget2_rel; exact Hq|]. intros x m Hx. eapply rel_bind; [apply vget2_rel; exact Hq|]. intros y k2 Hy.
      apply vset2_rel; [exact Hq|apply frel_op; assumption].
  Qed.
  Definition lists (v : list T) : list (list (option T)) := map (fun x => [Some x]) v.
  Lemma lists_rel v : Forall2 frel v (lists v).
  Proof. induction v as [|x v IH]; constructor; [apply fd_one|exact IH]. Qed.
  Lemma lists_slice v l r : slice (lists v) l r = lists (slice v l r).
  Proof. unfold lists, slice. change (map ?f ?l) with (f <$> l). rewrite <- fmap_drop, <- fmap_take. reflexivity. Qed.
  Lemma lists_fold : forall w m, fold_left app (lists w) m = m ++ map Some w.
  Proof.
    induction w as [|x w IH]; intros m; cbn; [rewrite app_nil_r; reflexivity|]. unfold lists in IH. rewrite IH, <- app_assoc. reflexivity.
  Qed.
  Lemma lists_fold1 w m : fold1 app (lists w) = Some m -> m = map Some w.
  Proof. destruct w as [|x w]; cbn; [discriminate|]. intros [= <-]. change (map (fun x => [Some x]) w) with (lists w). rewrite lists_fold. reflexivity. Qed.
  Lemma default_some (w : list T) : map (default init) (map Some w) = w.
  Proof. induction w as [|x w IH]; cbn; congruence. Qed.
  Lemma folds_nonempty l x : folds op l x -> l <> [].
  Proof. intros H. induction H as [x|l1 l2 x y H1 IH1 H2 IH2]; [discriminate|]. destruct l1; [contradiction|discriminate]. Qed.
  Lemma folds_single l x : folds op l x -> forall y, l = [y] -> x = y.
  Proof.
    intros H. destruct H as [x|l1 l2 x y H1 H2]; intros z E; [congruence|]. apply folds_nonempty in H1, H2.
    destruct l1 as [|a [|b l1]], l2; try contradiction; discriminate E.
  Qed.

  Definition Tab (v : list T) (data : list (list T)) : Prop := exists data2, tabrel data data2 /\ SInv app (lists v) [None] data2.
  Lemma from_tab v : 0 < length v -> (Z.of_nat (length v) < 2 ^ 64)%Z -> exists data, sp_from v init op = Ok data /\ Tab v data.
  Proof.
    intros H0 H64. pose proof (from_rel v (lists v) (lists_rel v)) as R.
    destruct (sp_from_inv app (@app_assoc _) (lists v) [None]) as (data2 & E & I); [unfold lists; rewrite map_length; assumption..|].
    rewrite E in R. destruct (rel_ok_r _ _ _ R) as (data & -> & Hd). exists data. split; [reflexivity|]. exists data2. auto.
  Qed.
  Lemma tab_block v data c row i : Tab v data -> data !! c = Some row -> i < length v -> exists x, row !! i = Some x /\ block_any op v init i (2 ^ c) x.
  Proof.
    intros (data2 & H & I) Hrow Hi. destruct (Forall2_lookup_l _ _ _ _ _ H Hrow) as (row2 & Hrow2 & Hr). pose proof (map_length (fun x => [Some x]) v) as Hl.
    destruct (row_block app (lists v) [None] c row2 i (si_row _ _ _ _ I c row2 Hrow2)) as (m & Hm & B); [unfold lists; lia|].
    destruct (Forall2_lookup_r _ _ _ _ _ Hr Hm) as (x & Hx & Fx). exists x. split; [exact Hx|]. unfold block, lists in B. rewrite Hl in B. fold (lists v) in B.
    destruct B as [[B1 B2]|[B1 ->]].
    - left. split; [exact B1|]. rewrite lists_slice in B2. apply lists_fold1 in B2 as ->. unfold frel in Fx. rewrite default_some in Fx. exact Fx.
    - right. split; [exact B1|]. exact (folds_single _ _ Fx init eq_refl).
  Qed.

  (** Every query, in range or not. *)
  Lemma get_mix v data l r c : Tab v data -> (Z.of_nat r < 2 ^ 64)%Z -> l < r -> 2 ^ c <= r - l < 2 * 2 ^ c ->
    (2 ^ c <= length v -> l < length v -> r < length v + 2 ^ c ->
       exists x y, sp_get op data l r = Ok (op x y) /\ block_any op v init l (2 ^ c) x /\ block_any op v init (r - 2 ^ c) (2 ^ c) y) /\
    (length v < 2 ^ c \/ length v <= l \/ length v + 2 ^ c <= r -> sp_get op data l r = Panic).
  Proof.
    intros Tb H64 Hlr Hc. pose proof Tb as (data2 & H & I). unfold sp_get. destruct (Nat.ltb_spec l r); [|lia]. cbn [rassert mbind res_bind].
    destruct (lgn_spec (r - l)) as (c' & -> & Hc'); [lia|lia|]. cbn [mbind res_bind].
    assert (c' = c) as ->.
    { destruct (Nat.lt_trichotomy c c') as [L|[L|L]]; [|congruence|].
      - assert (2 ^ S c <= 2 ^ c') by (apply Nat.pow_le_mono_r; lia). rewrite Nat.pow_succ_r' in *. lia.
      - assert (2 ^ S c' <= 2 ^ c) by (apply Nat.pow_le_mono_r; lia). rewrite Nat.pow_succ_r' in *. lia. }
    destruct (si_count _ _ _ _ I) as (k & Hk & Hkn). rewrite <- (Forall2_length _ _ _ H) in Hk. unfold lists in Hkn. rewrite map_length in Hkn. split.
    - intros H1 H2 H3.
      assert (c <= k).
      { destruct (decide (c <= k)); [assumption|].
        assert (2 ^ S k <= 2 ^ c) by (apply Nat.pow_le_mono_r; lia). rewrite Nat.pow_succ_r' in *. lia. }
      destruct (lookup_lt_is_Some_2 data c ltac:(lia)) as [row Hrow].
      destruct (tab_block v data c row l Tb Hrow H2) as (x & Hx & Cx). destruct (tab_block v data c row (r - 2 ^ c) Tb Hrow) as (y & Hy & Cy); [lia|].
      exists x, y. split; [|split; assumption].
      unfold vget2. rewrite (vget_ok _ _ _ Hrow). cbn [mbind res_bind].
      rewrite (vget_ok _ _ _ Hx). cbn [mbind res_bind]. rewrite nsub_ok by lia. cbn [mbind res_bind].
      rewrite (vget_ok _ _ _ Hy). reflexivity.
    - intros H1. unfold vget2. destruct (data !! c) as [row|] eqn:E.
      2:{ unfold vget. rewrite E. reflexivity. }
      assert (c <= k) by (apply lookup_lt_Some in E; lia). assert (2 ^ c <= 2 ^ k) by (apply Nat.pow_le_mono_r; lia).
      rewrite (vget_ok _ _ _ E). cbn [mbind res_bind]. destruct (Forall2_lookup_l _ _ _ _ _ H E) as (row2 & Hrow2 & Hr).
      pose proof (si_len _ _ _ _ I c row2 Hrow2) as L. rewrite <- (Forall2_length _ _ _ Hr) in L. unfold lists in L. rewrite map_length in L. unfold vget.
      destruct (row !! l) as [x|] eqn:El; [|reflexivity]. apply lookup_lt_Some in El. cbn [mbind res_bind].
      rewrite nsub_ok by lia. cbn [mbind res_bind]. rewrite (lookup_ge_None_2 row (r - 2 ^ c)) by lia. reflexivity.
  Qed.
  Lemma folds_lawful : (forall x y z, op x (op y z) = op (op x y) z) -> forall l x, folds op l x -> fold1 op l = Some x.
  Proof. intros A l x H. induction H as [x|l1 l2 x y H1 IH1 H2 IH2]; [reflexivity|]. apply (fold1_app op A); assumption. Qed.
End Sparse.
