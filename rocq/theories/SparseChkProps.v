(** Property theorems for src/data_structure/sparse_table.rs with a closure that may panic (C68). *)
From Verif Require Import Prelude UtilModel UtilProof ArraySpec SparseSpec SparseModel SparseProof PartialOps SparseChkModel.

Section Good.
  Context {T : Type} (op : T -> T -> T) (A : forall x y z, op x (op y z) = op (op x y) z).
  Context (good : T -> Prop) (opc : T -> T -> res T) (Ag : agrees good op opc).

  (** Every non-empty range of v has a good product. *)
  Definition blocks_good (v : list T) : Prop := forall l r x, l < r <= length v -> fold1 op (slice v l r) = Some x -> good x.

  Lemma spc_from_inv v init : blocks_good v -> 0 < length v -> (Z.of_nat (length v) < 2 ^ 64)%Z ->
    exists data, spc_from opc v init = Ok data /\ SInv op v init data.
  Proof.
    intros G Hn H64. unfold spc_from. set (n := length v).
    destruct (lgn_spec n Hn H64) as (k & -> & Hk). cbn [mbind res_bind].
    rewrite vset_ok by (rewrite replicate_length; lia). cbn [mbind res_bind]. unfold range.
    destruct (rfor_range_inv
      (fun c data => length data = k + 1 /\ (forall c' row, data !! c' = Some row -> length row = n) /\
         (forall c' row, c' < c -> data !! c' = Some row -> row_ok op v init c' row) /\
         (forall c', c <= c' < k + 1 -> data !! c' = Some (replicate n init)))
      1 (k + 1) (fun c data => spc_row opc n c data) (<[0:=v]> (replicate (k + 1) (replicate n init))))
      as (data & Hr & Hlen & Hlens & Hrows & _).
    - lia.
    - rewrite insert_length, replicate_length. split; [reflexivity|]. split.
      + intros c' row H. destruct (decide (c' = 0)) as [->|Hne].
        * rewrite list_lookup_insert in H by (rewrite replicate_length; lia). injection H as <-. reflexivity.
        * rewrite list_lookup_insert_ne in H by lia. apply lookup_replicate in H as [-> _].
          apply replicate_length.
      + split; [|intros c' Hc'; rewrite list_lookup_insert_ne by lia; apply lookup_replicate; split; [reflexivity|lia]].
        intros c' row Hc' H. assert (c' = 0) as -> by lia.
        rewrite list_lookup_insert in H by (rewrite replicate_length; lia). injection H as <-.
        split; [reflexivity|]. split; [rewrite Nat.pow_0_r; lia|]. intros i Hi. rewrite Nat.pow_0_r in *.
        destruct (lookup_lt_is_Some_2 v i) as [x Hx]; [lia|]. exists x. split; [exact Hx|].
        rewrite (slice_single v i x Hx). reflexivity.
    - intros c data Hc (Hlen & Hlens & Hrows & Hinit). unfold spc_row.
      assert (2 ^ c <= n) as Hcn.
      { transitivity (2 ^ k); [apply Nat.pow_le_mono_r; lia|lia]. }
      assert (2 ^ c = 2 * 2 ^ (c - 1)) as Ec.
      { rewrite <- Nat.pow_succ_r'. f_equal. lia. }
      pose proof (pow2_ge1 (c - 1)) as Hp.
      rewrite nsub_ok by lia. cbn [mbind res_bind]. unfold range_incl.
      destruct (lookup_lt_is_Some_2 data (c - 1) ltac:(lia)) as [prev Hprev].
      destruct (Hrows (c - 1) prev ltac:(lia) Hprev) as (Lprev & _ & Vprev).
      destruct (rfor_range_inv
        (fun i data' => length data' = k + 1 /\
           (forall c' , c' <> c -> data' !! c' = data !! c') /\
           exists row, data' !! c = Some row /\ length row = n /\ (forall j, i <= j < n -> row !! j = Some init) /\
             forall j, j < i -> exists x, row !! j = Some x /\ fold1 op (slice v j (j + 2 ^ c)) = Some x)
        0 (S (n - 2 ^ c)) (fun i data =>
          x ← vget2 data (c - 1) i;
          y ← vget2 data (c - 1) (i + 2 ^ (c - 1));
          z ← opc x y; vset2 data c i z) data) as (data' & Hr & Hlen' & Hoth & row & Hrow & Lrow & Irow & Vrow).
      + lia.
      + split; [exact Hlen|]. split; [auto|].
        exists (replicate n init). split; [apply Hinit; lia|]. split; [apply replicate_length|]. split; [|lia].
        intros j Hj. apply lookup_replicate. split; [reflexivity|lia].
      + intros i d Hi (Ld & Oth & row & Hrow & Lrow & Irow & Vrow).
        destruct (Vprev i) as (x & Hx & Fx); [fold n; lia|].
        destruct (Vprev (i + 2 ^ (c - 1))) as (y & Hy & Fy); [fold n; lia|].
        unfold vget2, vset2.
        rewrite (vget_ok d (c - 1) prev) by (rewrite Oth by lia; exact Hprev). cbn [mbind res_bind].
        rewrite (vget_ok _ _ _ Hx). cbn [mbind res_bind].
        rewrite (vget_ok _ _ _ Hy). cbn [mbind res_bind].
        assert (fold1 op (slice v i (i + 2 ^ c)) = Some (op x y)) as Fxy.
        { apply (fold1_slice_app op A v i (i + 2 ^ (c - 1))); [lia|exact Fx|]. rewrite <- Fy. f_equal. f_equal. lia. }
        rewrite (Ag x y) by (apply (G i (i + 2 ^ c)); [fold n; lia|exact Fxy]). cbn [mbind res_bind].
        rewrite (vget_ok d c row Hrow). cbn [mbind res_bind].
        rewrite vset_ok by lia. cbn [mbind res_bind].
        rewrite vset_ok by lia. eexists; split; [reflexivity|].
        split; [rewrite insert_length; exact Ld|]. split.
        { intros c' Hc'. rewrite list_lookup_insert_ne by lia. apply Oth. exact Hc'. }
        eexists. split; [apply list_lookup_insert; lia|]. split; [rewrite insert_length; exact Lrow|].
        split; [intros j Hj; rewrite list_lookup_insert_ne by lia; apply Irow; lia|].
        intros j Hj. destruct (decide (j = i)) as [->|Hne].
        * eexists. split; [apply list_lookup_insert; lia|].
          exact Fxy.
        * rewrite list_lookup_insert_ne by lia. apply Vrow. lia.
      + exists data'. split; [exact Hr|]. split; [exact Hlen'|]. split.
        * intros c' row' H. destruct (decide (c' = c)) as [->|Hne].
          -- congruence.
          -- rewrite Hoth in H by assumption. apply (Hlens c'). exact H.
        * split; [|intros c' Hc'; rewrite Hoth by lia; apply Hinit; lia].
          intros c' row' Hc' H. destruct (decide (c' = c)) as [->|Hne].
          -- assert (row' = row) as -> by congruence. split; [exact Lrow|].
             split; [intros i H1 H2; apply Irow; fold n in H1, H2; lia|].
             intros i Hi. apply Vrow. fold n in Hi. lia.
          -- rewrite Hoth in H by assumption. apply (Hrows c'); [lia|exact H].
    - exists data. split; [exact Hr|]. constructor.
      + exists k. auto.
      + exact Hlens.
      + intros c row H. apply (Hrows c); [|exact H]. apply lookup_lt_Some in H. lia.
  Qed.

  Lemma spc_get_ok (Idem : forall x, op x x = x) v init data l r : blocks_good v -> SInv op v init data ->
    (Z.of_nat (length v) < 2 ^ 64)%Z -> l < r <= length v ->
    exists x, spc_get opc data l r = Ok x /\ fold1 op (slice v l r) = Some x.
  Proof.
    intros G I H64 Hlr. unfold spc_get. destruct (Nat.ltb_spec l r); [|lia]. cbn [rassert mbind res_bind].
    destruct (lgn_spec (r - l)) as (c & -> & Hc); [lia|lia|]. cbn [mbind res_bind].
    destruct (si_count _ _ _ _ I) as (k & Hk & Hkn). pose proof (pow2_ge1 c) as Hp.
    assert (c <= k).
    { destruct (decide (c <= k)); [assumption|].
      assert (2 ^ S k <= 2 ^ c) by (apply Nat.pow_le_mono_r; lia). rewrite Nat.pow_succ_r' in *. lia. }
    destruct (lookup_lt_is_Some_2 data c ltac:(lia)) as [row Hrow].
    destruct (si_row _ _ _ _ I c row Hrow) as (Lrow & _ & Vrow).
    destruct (Vrow l) as (x & Hx & Fx); [lia|]. destruct (Vrow (r - 2 ^ c)) as (y & Hy & Fy); [lia|].
    unfold vget2. rewrite (vget_ok _ _ _ Hrow). cbn [mbind res_bind].
    rewrite (vget_ok _ _ _ Hx). cbn [mbind res_bind]. rewrite nsub_ok by lia. cbn [mbind res_bind].
    rewrite (vget_ok _ _ _ Hy). cbn [mbind res_bind].
    assert (fold1 op (slice v l r) = Some (op x y)) as F.
    { replace (r - 2 ^ c + 2 ^ c) with r in Fy by lia. destruct (decide (l + 2 ^ c = r)) as [E|Hne].
      - rewrite E in Fx. replace (r - 2 ^ c) with l in Fy by lia. assert (x = y) as -> by congruence. rewrite Idem. exact Fy.
      - apply (fold1_overlap op A Idem v l (r - 2 ^ c) (l + 2 ^ c) r); [lia|lia|lia|lia|exact Fx|exact Fy]. }
    exists (op x y). split; [|exact F]. apply Ag, (G l r); [lia|exact F].
  Qed.
End Good.

Section Le.
  Context {T : Type} (op : T -> T -> T) (opc : T -> T -> res T) (O : or_panics op opc).
  Lemma le_sp_from v init : le_res (spc_from opc v init) (sp_from v init op).
  Proof.
    unfold spc_from, sp_from. apply le_bind; [apply le_refl|]. intros k. apply le_bind; [apply le_refl|]. intros data.
    apply le_rfor. intros c d. unfold spc_row, sp_row. apply le_bind; [apply le_refl|]. intros b. apply le_rfor. intros i d'.
    apply le_bind; [apply le_refl|]. intros x. apply le_bind; [apply le_refl|]. intros y. apply (le_opc op); [exact O|apply le_refl].
  Qed.
  Lemma le_sp_get data l r : le_res (spc_get opc data l r) (sp_get op data l r).
  Proof.
    unfold spc_get, sp_get. apply le_bind; [apply le_refl|]. intros _. apply le_bind; [apply le_refl|]. intros c. apply le_bind; [apply le_refl|]. intros x.
    apply le_bind; [apply le_refl|]. intros j. apply le_bind; [apply le_refl|]. intros y. destruct (O x y) as [-> | ->]; [apply le_refl|right; reflexivity].
  Qed.
End Le.

(** C68: if the product of every non-empty range is one the closure can compute, building and all queries go as in C08. *)
Theorem C68_sparse_checked : forall {T : Type} (op : T -> T -> T) (good : T -> Prop) (opc : T -> T -> res T),
  (forall x y z, op x (op y z) = op (op x y) z) -> (forall x, op x x = x) -> agrees good op opc ->
  forall (v : list T) (init : T), 0 < length v -> (Z.of_nat (length v) < 2 ^ 64)%Z ->
  (forall l r x, l < r <= length v -> fold1 op (slice v l r) = Some x -> good x) ->
  exists data, spc_from opc v init = Ok data /\
    (forall l r, l < r <= length v -> exists x, spc_get opc data l r = Ok x /\ fold1 op (slice v l r) = Some x) /\
    (forall l r, r <= l -> spc_get opc data l r = Panic).
Proof.
  intros T op good opc A Idem Ag v init Hn H64 G. destruct (spc_from_inv op A good opc Ag v init G Hn H64) as (data & E & I).
  exists data. split; [exact E|]. split.
  - intros l r Hlr. apply (spc_get_ok op A good opc Ag Idem v init); assumption.
  - intros l r Hlr. unfold spc_get. destruct (Nat.ltb_spec l r); [lia|reflexivity].
Qed.
Print Assumptions C68_sparse_checked.

(** C68: with a closure that computes op or panics, a table that was built answers every query inside the array with the product
    of the range, or panics. *)
Theorem C68_sparse_never_wrong : forall {T : Type} (op : T -> T -> T) (opc : T -> T -> res T),
  (forall x y z, op x (op y z) = op (op x y) z) -> (forall x, op x x = x) -> or_panics op opc ->
  forall (v : list T) (init : T), (Z.of_nat (length v) < 2 ^ 64)%Z ->
  spc_from opc v init <> Diverge /\
  forall data, spc_from opc v init = Ok data ->
    (forall l r, spc_get opc data l r = sp_get op data l r \/ spc_get opc data l r = Panic) /\
    (forall l r x, l < r <= length v -> spc_get opc data l r = Ok x -> fold1 op (slice v l r) = Some x).
Proof.
  intros T op opc A Idem O v init H64. pose proof (le_sp_from op opc O v init) as Hle.
  assert ((exists data, sp_from v init op = Ok data /\ SInv op v init data) \/ sp_from v init op = Panic) as Hp.
  { destruct (decide (0 < length v)) as [Hn|Hn]; [left; apply (sp_from_inv op A); assumption|]. right. destruct v; [reflexivity|cbn in Hn; lia]. }
  split.
  - destruct Hle as [-> | ->]; [|discriminate]. destruct Hp as [(data & -> & _)| ->]; discriminate.
  - intros data E. destruct Hle as [Hle|Hle]; [|congruence]. rewrite Hle in E. destruct Hp as [(data' & E' & I)|Hp]; [|congruence].
    assert (data' = data) as -> by congruence. split.
    + intros l r. apply (le_sp_get op opc O data l r).
    + intros l r x Hlr Hx. destruct (le_sp_get op opc O data l r) as [E1|E1]; [|congruence].
      destruct (sp_get_ok op A Idem v init data l r I H64 Hlr) as (y & Hy & F). congruence.
Qed.
Print Assumptions C68_sparse_never_wrong.

(** Least common multiples that must stay below 100: 2, 3, 4, 6, 12 is fine; with a 9 and a 25 the table cannot be built. *)
Definition lcm100 (a b : Z) : res Z := if (Z.lcm a b <? 100)%Z then Ok (Z.lcm a b) else Panic.
Example C68_nonvacuous : agrees (fun x => x < 100)%Z Z.lcm lcm100 /\ or_panics Z.lcm lcm100 /\
  (exists data, spc_from lcm100 [2; 3; 4; 6; 12]%Z 1%Z = Ok data /\ spc_get lcm100 data 0 3 = Ok 12%Z) /\
  spc_from lcm100 [9; 25; 1]%Z 1%Z = Panic /\
  (exists data, spc_from lcm100 [9; 1; 25]%Z 1%Z = Ok data /\ spc_get lcm100 data 0 2 = Ok 9%Z /\ spc_get lcm100 data 0 3 = Panic).
Proof.
  split; [intros x y H; unfold lcm100; apply Z.ltb_lt in H; rewrite H; reflexivity|].
  split; [intros x y; unfold lcm100; destruct (Z.lcm x y <? 100)%Z; auto|].
  split; [eexists; split; vm_compute; reflexivity|]. split; [vm_compute; reflexivity|].
  eexists. repeat split; vm_compute; reflexivity.
Qed.
