From Verif Require Import Prelude UtilModel UtilProof ArraySpec SparseSpec SparseModel.

Lemma lgn_spec n : 0 < n -> (Z.of_nat n < 2 ^ 64)%Z ->
  exists k, lgn n = Ok k /\ 2 ^ k <= n < 2 * 2 ^ k.
Proof.
  intros Hn H64. unfold lgn. rewrite lg_spec by lia. cbn [mbind res_bind].
  exists (Z.to_nat (Z.log2 (Z.of_nat n))). split; [reflexivity|].
  destruct (Z.log2_spec (Z.of_nat n)) as [H1 H2]; [lia|].
  set (z := Z.log2 (Z.of_nat n)) in *. assert (0 <= z)%Z by apply Z.log2_nonneg.
  rewrite Z.pow_succ_r in H2 by lia.
  assert (Z.of_nat (2 ^ Z.to_nat z) = 2 ^ z)%Z as E by (rewrite Nat2Z.inj_pow, Z2Nat.id; lia).
  rewrite <- E in *. lia.
Qed.

Section Fold.
  Context {T : Type} (op : T -> T -> T) (A : forall x y z, op x (op y z) = op (op x y) z).

  Lemma fold_left_shift l x y : fold_left op l (op x y) = op x (fold_left op l y).
  Proof. revert y. induction l as [|z l IH]; intros y; cbn; [reflexivity|]. rewrite <- A. apply IH. Qed.

  Lemma fold1_app l1 l2 x y : fold1 op l1 = Some x -> fold1 op l2 = Some y ->
    fold1 op (l1 ++ l2) = Some (op x y).
  Proof.
    destruct l1 as [|a l1], l2 as [|b l2]; try discriminate. cbn. intros [= <-] [= <-].
    f_equal. rewrite fold_left_app. cbn. apply fold_left_shift.
  Qed.

  Lemma fold1_some l : l <> [] -> exists x, fold1 op l = Some x.
  Proof. destruct l; [congruence|]. intros _. eexists; reflexivity. Qed.

  Lemma fold1_slice (v : list T) l r : l < r <= length v -> exists x, fold1 op (slice v l r) = Some x.
  Proof.
    intros H. apply fold1_some. intros E. apply (f_equal length) in E.
    rewrite slice_length in E by lia. cbn in E. lia.
  Qed.

  Lemma fold1_slice_app v l m r x y : l <= m <= r ->
    fold1 op (slice v l m) = Some x -> fold1 op (slice v m r) = Some y ->
    fold1 op (slice v l r) = Some (op x y).
  Proof. intros H Hx Hy. rewrite <- (slice_app v l m r) by lia. apply fold1_app; assumption. Qed.

  (** Two overlapping blocks that cover [l, r). *)
  Lemma fold1_overlap (Idem : forall x, op x x = x) v l m1 m2 r x y :
    l <= m1 -> m1 < m2 -> m2 <= r -> r <= length v ->
    fold1 op (slice v l m2) = Some x -> fold1 op (slice v m1 r) = Some y ->
    fold1 op (slice v l r) = Some (op x y).
  Proof.
    intros H1 H2 H3 H4 Hx Hy.
    destruct (fold1_slice v m1 m2) as [b Hb]; [lia|].
    assert (y = b \/ exists c, y = op b c /\ fold1 op (slice v m2 r) = Some c) as Hyb.
    { destruct (decide (m2 = r)) as [->|Hne].
      - left. congruence.
      - right. destruct (fold1_slice v m2 r) as [c Hc]; [lia|]. exists c. split; [|exact Hc].
        pose proof (fold1_slice_app v m1 m2 r b c ltac:(lia) Hb Hc). congruence. }
    assert (op x b = x) as Hxb.
    { destruct (decide (l = m1)) as [->|Hne].
      - assert (x = b) as -> by congruence. apply Idem.
      - destruct (fold1_slice v l m1) as [a Ha]; [lia|].
        pose proof (fold1_slice_app v l m1 m2 a b ltac:(lia) Ha Hb) as E.
        assert (x = op a b) as -> by congruence. rewrite <- A, Idem. reflexivity. }
    destruct Hyb as [->|(c & -> & Hc)].
    - rewrite Hxb. destruct (decide (m2 = r)) as [->|Hne]; [exact Hx|].
      destruct (fold1_slice v m2 r) as [c Hc]; [lia|].
      pose proof (fold1_slice_app v l m2 r x c ltac:(lia) Hx Hc) as E.
      pose proof (fold1_slice_app v m1 m2 r b c ltac:(lia) Hb Hc) as E2.
      assert (op b c = b) as E3 by congruence.
      rewrite E. f_equal. rewrite <- Hxb at 1. rewrite <- A, E3. exact Hxb.
    - rewrite A, Hxb. apply (fold1_slice_app v l m2 r); [lia|exact Hx|exact Hc].
  Qed.
End Fold.

Section Proof.
  Context {T : Type} (op : T -> T -> T) (A : forall x y z, op x (op y z) = op (op x y) z).

  Definition row_ok (v : list T) (init : T) (c : nat) (row : list T) : Prop :=
    length row = length v /\
    (forall i, length v < i + 2 ^ c -> i < length v -> row !! i = Some init) /\
    forall i, i + 2 ^ c <= length v -> exists x, row !! i = Some x /\ fold1 op (slice v i (i + 2 ^ c)) = Some x.

  (** the table: count rows, every row full length, row c holds blocks of length 2^c, and init where no block fits *)
  Record SInv (v : list T) (init : T) (data : list (list T)) : Prop := {
    si_count : exists k, length data = k + 1 /\ 2 ^ k <= length v < 2 * 2 ^ k;
    si_len : forall c row, data !! c = Some row -> length row = length v;
    si_row : forall c row, data !! c = Some row -> row_ok v init c row }.

  Lemma pow2_ge1 k : 0 < 2 ^ k.
  Proof. assert (2 ^ k <> 0) by (apply Nat.pow_nonzero; lia). lia. Qed.

  Lemma sp_from_inv v init : 0 < length v -> (Z.of_nat (length v) < 2 ^ 64)%Z ->
    exists data, sp_from v init op = Ok data /\ SInv v init data.
  Proof.
    intros Hn H64. unfold sp_from. set (n := length v).
    destruct (lgn_spec n Hn H64) as (k & -> & Hk). cbn [mbind res_bind].
    rewrite vset_ok by (rewrite replicate_length; lia). cbn [mbind res_bind]. unfold range.
    destruct (rfor_range_inv
      (fun c data => length data = k + 1 /\ (forall c' row, data !! c' = Some row -> length row = n) /\
         (forall c' row, c' < c -> data !! c' = Some row -> row_ok v init c' row) /\
         (forall c', c <= c' < k + 1 -> data !! c' = Some (replicate n init)))
      1 (k + 1) (fun c data => sp_row op n c data) (<[0:=v]> (replicate (k + 1) (replicate n init))))
      as (data & Hr & Hlen & Hlens & Hrows & _).
    - lia.
    - rewrite insert_length, replicate_length. split; [reflexivity|]. split.
      + intros c' row H. destruct (decide (c' = 0)) as [->|Hne].
        * rewrite list_lookup_insert in H by (rewrite replicate_length; lia). injection H as <-. reflexivity.
        * rewrite list_lookup_insert_ne in H by lia. apply lookup_replicate in H as [-> _].
          apply replicate_length.
      + split; [|intros c' Hc'; rewrite list_lookup_insert_ne by lia; apply lookup_replicate; split; [reflexivity|lia]].
        intros c' row Hc' H. assert (c' = 0) as -> by lia.
        rewrite list_lookup_insert in H by (rewrite replicate_length; lia). injection H as <-.
        split; [reflexivity|]. split; [rewrite Nat.pow_0_r; lia|]. intros i Hi. rewrite Nat.pow_0_r in *.
        destruct (lookup_lt_is_Some_2 v i) as [x Hx]; [lia|]. exists x. split; [exact Hx|].
        rewrite (slice_single v i x Hx). reflexivity.
    - intros c data Hc (Hlen & Hlens & Hrows & Hinit). unfold sp_row.
      assert (2 ^ c <= n) as Hcn.
      { transitivity (2 ^ k); [apply Nat.pow_le_mono_r; lia|lia]. }
      assert (2 ^ c = 2 * 2 ^ (c - 1)) as Ec.
      { rewrite <- Nat.pow_succ_r'. f_equal. lia. }
      pose proof (pow2_ge1 (c - 1)) as Hp.
      rewrite nsub_ok by lia. cbn [mbind res_bind]. unfold range_incl.
      destruct (lookup_lt_is_Some_2 data (c - 1) ltac:(lia)) as [prev Hprev].
      destruct (Hrows (c - 1) prev ltac:(lia) Hprev) as (Lprev & _ & Vprev).
      destruct (rfor_range_inv
        (fun i data' => length data' = k + 1 /\
           (forall c' , c' <> c -> data' !! c' = data !! c') /\
           exists row, data' !! c = Some row /\ length row = n /\ (forall j, i <= j < n -> row !! j = Some init) /\
             forall j, j < i -> exists x, row !! j = Some x /\ fold1 op (slice v j (j + 2 ^ c)) = Some x)
        0 (S (n - 2 ^ c)) (fun i data =>
          x ← vget2 data (c - 1) i;
          y ← vget2 data (c - 1) (i + 2 ^ (c - 1));
          vset2 data c i (op x y)) data) as (data' & Hr & Hlen' & Hoth & row & Hrow & Lrow & Irow & Vrow).
      + lia.
      + split; [exact Hlen|]. split; [auto|].
        exists (replicate n init). split; [apply Hinit; lia|]. split; [apply replicate_length|]. split; [|lia].
        intros j Hj. apply lookup_replicate. split; [reflexivity|lia].
      + intros i d Hi (Ld & Oth & row & Hrow & Lrow & Irow & Vrow).
        destruct (Vprev i) as (x & Hx & Fx); [fold n; lia|].
        destruct (Vprev (i + 2 ^ (c - 1))) as (y & Hy & Fy); [fold n; lia|].
        unfold vget2, vset2.
        rewrite (vget_ok d (c - 1) prev) by (rewrite Oth by lia; exact Hprev). cbn [mbind res_bind].
        rewrite (vget_ok _ _ _ Hx). cbn [mbind res_bind].
        rewrite (vget_ok _ _ _ Hy). cbn [mbind res_bind].
        rewrite (vget_ok d c row Hrow). cbn [mbind res_bind].
        rewrite vset_ok by lia. cbn [mbind res_bind].
        rewrite vset_ok by lia. eexists; split; [reflexivity|].
        split; [rewrite insert_length; exact Ld|]. split.
        { intros c' Hc'. rewrite list_lookup_insert_ne by lia. apply Oth. exact Hc'. }
        eexists. split; [apply list_lookup_insert; lia|]. split; [rewrite insert_length; exact Lrow|].
        split; [intros j Hj; rewrite list_lookup_insert_ne by lia; apply Irow; lia|].
        intros j Hj. destruct (decide (j = i)) as [->|Hne].
        * eexists. split; [apply list_lookup_insert; lia|].
          apply (fold1_slice_app op A v i (i + 2 ^ (c - 1))); [lia|exact Fx|].
          rewrite <- Fy. f_equal. f_equal. lia.
        * rewrite list_lookup_insert_ne by lia. apply Vrow. lia.
      + exists data'. split; [exact Hr|]. split; [exact Hlen'|]. split.
        * intros c' row' H. destruct (decide (c' = c)) as [->|Hne].
          -- congruence.
          -- rewrite Hoth in H by assumption. apply (Hlens c'). exact H.
        * split; [|intros c' Hc'; rewrite Hoth by lia; apply Hinit; lia].
          intros c' row' Hc' H. destruct (decide (c' = c)) as [->|Hne].
          -- assert (row' = row) as -> by congruence. split; [exact Lrow|].
             split; [intros i H1 H2; apply Irow; fold n in H1, H2; lia|].
             intros i Hi. apply Vrow. fold n in Hi. lia.
          -- rewrite Hoth in H by assumption. apply (Hrows c'); [lia|exact H].
    - exists data. split; [exact Hr|]. constructor.
      + exists k. auto.
      + exact Hlens.
      + intros c row H. apply (Hrows c); [|exact H]. apply lookup_lt_Some in H. lia.
  Qed.

  Lemma sp_get_ok (Idem : forall x, op x x = x) v init data l r : SInv v init data ->
    (Z.of_nat (length v) < 2 ^ 64)%Z -> l < r <= length v ->
    exists x, sp_get op data l r = Ok x /\ fold1 op (slice v l r) = Some x.
  Proof.
    intros I H64 Hlr. unfold sp_get. destruct (Nat.ltb_spec l r); [|lia]. cbn [rassert mbind res_bind].
    destruct (lgn_spec (r - l)) as (c & -> & Hc); [lia|lia|]. cbn [mbind res_bind].
    destruct (si_count _ _ _ I) as (k & Hk & Hkn). pose proof (pow2_ge1 c) as Hp.
    assert (c <= k).
    { destruct (decide (c <= k)); [assumption|].
      assert (2 ^ S k <= 2 ^ c) by (apply Nat.pow_le_mono_r; lia). rewrite Nat.pow_succ_r' in *. lia. }
    destruct (lookup_lt_is_Some_2 data c ltac:(lia)) as [row Hrow].
    destruct (si_row _ _ _ I c row Hrow) as (Lrow & _ & Vrow).
    destruct (Vrow l) as (x & Hx & Fx); [lia|]. destruct (Vrow (r - 2 ^ c)) as (y & Hy & Fy); [lia|].
    unfold vget2. rewrite (vget_ok _ _ _ Hrow). cbn [mbind res_bind].
    rewrite (vget_ok _ _ _ Hx). cbn [mbind res_bind]. rewrite nsub_ok by lia. cbn [mbind res_bind].
    rewrite (vget_ok _ _ _ Hy). cbn [mbind res_bind].
    eexists. split; [reflexivity|]. replace (r - 2 ^ c + 2 ^ c) with r in Fy by lia.
    destruct (decide (l + 2 ^ c = r)) as [E|Hne].
    - rewrite E in Fx. replace (r - 2 ^ c) with l in Fy by lia.
      assert (x = y) as -> by congruence. rewrite Idem. exact Fy.
    - apply (fold1_overlap op A Idem v l (r - 2 ^ c) (l + 2 ^ c) r); [lia|lia|lia|lia|exact Fx|exact Fy].
  Qed.

  Lemma sp_get_empty data l r : r <= l -> sp_get op data l r = Panic.
  Proof. intros H. unfold sp_get. destruct (Nat.ltb_spec l r); [lia|reflexivity]. Qed.

  Lemma row_block v init c row i : row_ok v init c row -> i < length v -> exists x, row !! i = Some x /\ block op v init i (2 ^ c) x.
  Proof.
    intros (L & Hi & Hr) Hlt. unfold block. destruct (decide (i + 2 ^ c <= length v)) as [H|H].
    - destruct (Hr i H) as (x & Hx & Fx). eauto.
    - exists init. split; [apply Hi; lia|right; split; [lia|reflexivity]].
  Qed.

  (** Every query, in range or not. *)
  Lemma sp_get_any v init data l r c : SInv v init data -> (Z.of_nat r < 2 ^ 64)%Z -> l < r -> 2 ^ c <= r - l < 2 * 2 ^ c ->
    (2 ^ c <= length v -> l < length v -> r < length v + 2 ^ c ->
       exists x y, sp_get op data l r = Ok (op x y) /\ block op v init l (2 ^ c) x /\ block op v init (r - 2 ^ c) (2 ^ c) y) /\
    (length v < 2 ^ c \/ length v <= l \/ length v + 2 ^ c <= r -> sp_get op data l r = Panic).
  Proof.
    intros I H64 Hlr Hc. unfold sp_get. destruct (Nat.ltb_spec l r); [|lia]. cbn [rassert mbind res_bind].
    destruct (lgn_spec (r - l)) as (c' & -> & Hc'); [lia|lia|]. cbn [mbind res_bind].
    assert (c' = c) as ->.
    { destruct (Nat.lt_trichotomy c c') as [L|[L|L]]; [|congruence|].
      - assert (2 ^ S c <= 2 ^ c') by (apply Nat.pow_le_mono_r; lia). rewrite Nat.pow_succ_r' in *. lia.
      - assert (2 ^ S c' <= 2 ^ c) by (apply Nat.pow_le_mono_r; lia). rewrite Nat.pow_succ_r' in *. lia. }
    destruct (si_count _ _ _ I) as (k & Hk & Hkn). split.
    - intros H1 H2 H3.
      assert (c <= k).
      { destruct (decide (c <= k)); [assumption|].
        assert (2 ^ S k <= 2 ^ c) by (apply Nat.pow_le_mono_r; lia). rewrite Nat.pow_succ_r' in *. lia. }
      destruct (lookup_lt_is_Some_2 data c ltac:(lia)) as [row Hrow]. pose proof (si_row _ _ _ I c row Hrow) as R.
      destruct (row_block v init c row l R H2) as (x & Hx & Cx). destruct (row_block v init c row (r - 2 ^ c) R) as (y & Hy & Cy); [lia|].
      exists x, y. split; [|split; assumption].
      unfold vget2. rewrite (vget_ok _ _ _ Hrow). cbn [mbind res_bind].
      rewrite (vget_ok _ _ _ Hx). cbn [mbind res_bind]. rewrite nsub_ok by lia. cbn [mbind res_bind].
      rewrite (vget_ok _ _ _ Hy). reflexivity.
    - intros H1. unfold vget2. destruct (data !! c) as [row|] eqn:E.
      2:{ unfold vget. rewrite E. reflexivity. }
      assert (c <= k) by (apply lookup_lt_Some in E; lia). assert (2 ^ c <= 2 ^ k) by (apply Nat.pow_le_mono_r; lia).
      rewrite (vget_ok _ _ _ E). cbn [mbind res_bind]. pose proof (si_len _ _ _ I c row E) as L. unfold vget.
      destruct (row !! l) as [x|] eqn:El; [|reflexivity]. apply lookup_lt_Some in El. cbn [mbind res_bind].
      rewrite nsub_ok by lia. cbn [mbind res_bind]. rewrite (lookup_ge_None_2 row (r - 2 ^ c)) by lia. reflexivity.
  Qed.
End Proof.
