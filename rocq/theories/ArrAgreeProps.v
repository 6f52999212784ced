(** Property theorems about the array structures of src/data_structure used for the same task (C112). *)
From Verif Require Import Prelude UtilModel ArraySpec LazySpec LazyModel LazyProps SparseSpec SparseModel SparseProps
  SegtreeSpec SegtreeModel SegtreeProof SegtreeProps FenwickSpec FenwickModel FenwickProof FenwickProps ArrAgreeModel ArrAgreeProof.

(** C112, LazySegtree and Segtree: a LazySegtree on which nothing is applied answers, and panics, exactly as a Segtree. *)
Theorem C112_lazy_segtree : forall {S F : Type} (e : S) (op : S -> S -> S) (idm : F) (mapping : F -> S -> S) (comp : F -> F -> F),
  monoid_laws e op -> map_laws op idm mapping comp ->
  forall (v : list S) (ops : list (sg_op S)),
    fmap snd (t ← lt_from e op idm v; run (lt_step e op idm mapping comp) t (map as_lazy ops))
    = fmap (fun p => map as_lazy_out p.2) (t ← st_from e op v; run (st_step e op) t ops).
Proof.
  intros S F e op idm mapping comp L ML v ops. destruct (decide (Z.of_nat (length v) < 2 ^ 32)%Z) as [Hv|Hv].
  - rewrite (C04_lazy_refines_array e op idm mapping comp L ML v (map as_lazy ops) Hv).
    + rewrite as_lazy_run. pose proof (C01_segtree_refines_array e op L v ops Hv) as H.
      destruct (t ← st_from e op v; run (st_step e op) t ops) as [[? ?]| |], (run (sg_spec_step e op) v ops) as [[? ?]| |]; cbn in H |- *; congruence.
    + apply Forall_forall. intros o (o' & -> & _)%elem_of_list_fmap. destruct o'; reflexivity.
  - rewrite (C04_lazy_from_too_long e op idm v), (C01_segtree_from_too_long e op v) by lia. reflexivity.
Qed.
Print Assumptions C112_lazy_segtree.

(** C112, FenwickTree and Segtree: point additions and range sums over an abelian group. *)
Theorem C112_fenwick_segtree : forall {T U : Type} (zero : T) (add sub : T -> T -> T) (addu : T -> U -> T),
  fw_laws zero add addu -> (forall x y, sub (add x y) x = y) ->
  forall (a : list T) (ops : list (fw_op T U)), (Z.of_nat (length a) < 2 ^ 32)%Z ->
    Forall (fun o => forall l r, o = FwSum l r -> l <= r) ops ->
    fmap snd (t ← fw_from zero add a; run (fw_step zero add sub addu) t ops)
    = fmap snd (t ← st_from zero add a; run (sf_step zero add addu (length a)) t ops).
Proof.
  intros T U zero add sub addu L G a ops Ha Ho. rewrite (C06_fenwick_refines_array zero add sub addu L a ops).
  destruct (st_from_inv zero add a Ha) as (t & -> & I). cbn [mbind res_bind].
  pose proof (sf_run_ok zero add sub addu L G ops t a I Ho) as H.
  destruct (run (fw_spec_step zero add sub addu) a ops) as [[a' outs]| |]; [|destruct H as [_ ->]; reflexivity|destruct H; discriminate].
  destruct H as (t' & -> & _). reflexivity.
Qed.
Print Assumptions C112_fenwick_segtree.

(** C112, the two searches: after the same additions, [partition_point(pred)] and [max_right(0, pred)] give the same index when the
    predicate holds for the empty sum and along the prefixes turns false once. *)
Theorem C112_search : forall {T U : Type} (zero : T) (add sub : T -> T -> T) (addu : T -> U -> T),
  fw_laws zero add addu -> (forall x y, sub (add x y) x = y) ->
  forall (a0 a : list T) (ops : list (fw_op T U)) (t : fenwick T) (s : segtree T) outs (pred : T -> bool),
    (Z.of_nat (length a0) < 2 ^ 32)%Z -> 0 < length a0 ->
    Forall (fun o => forall l r, o = FwSum l r -> l <= r) ops ->
    fw_reached zero add sub addu a0 ops t a ->
    (s ← st_from zero add a0; run (sf_step zero add addu (length a0)) s ops) = Ok (s, outs) ->
    pred zero = true -> mono_from zero add a 0 pred ->
    exists r, fw_partition_point zero add t pred = Ok r /\ st_max_right zero add s 0 pred = Ok r.
Proof.
  intros T U zero add sub addu L G a0 a ops t s outs pred Ha Hn Ho R Hs Hz Hm.
  pose proof (fw_reached_inv zero add sub addu L a0 ops t a R) as I.
  destruct (st_from_inv zero add a0 Ha) as (s0 & E0 & I0). rewrite E0 in Hs. cbn [mbind res_bind] in Hs.
  pose proof (sf_run_ok zero add sub addu L G ops s0 a0 I0 Ho) as H.
  destruct R as [_ [outs' Hr]]. rewrite Hr in H. destruct H as (s' & Hs' & I'). rewrite Hs in Hs'. injection Hs' as <- E1.
  assert (Hl : length a = length a0).
  { clear -Hr. revert a0 outs' Hr. induction ops as [|o ops IH]; intros a0 outs' Hr; cbn [run] in Hr; [injection Hr as ->; reflexivity|].
    destruct (fw_spec_step zero add sub addu a0 o) as [[a1 x]| |] eqn:E; cbn [mbind res_bind] in Hr; [|discriminate|discriminate].
    destruct (run (fw_spec_step zero add sub addu) a1 ops) as [[a2 xs]| |] eqn:E2; cbn [mbind res_bind] in Hr; [|discriminate|discriminate].
    injection Hr as -> _. rewrite (IH a1 xs E2). destruct o as [i u|i|l r]; cbn in E.
    - injection E as <- _. destruct (a0 !! i); rewrite ?insert_length; reflexivity.
    - destruct (i <=? length a0); [|discriminate]. injection E as <- _. reflexivity.
    - destruct ((l <=? length a0) && (r <=? length a0)); [|discriminate]. injection E as <- _. reflexivity. }
  destruct L as [LM LC LU].
  destruct (partition_point_ok zero add LM t a I pred) as (r & Hp & Hle & H1 & H2); [lia|lia|].
  destruct (max_right_ok zero add LM s a I' 0 pred) as (q & Hq & ([_ Hqn] & Hq1 & Hq2)); [lia|exact Hz|].
  exists r. split; [exact Hp|]. rewrite Hq. f_equal.
  destruct (lt_eq_lt_dec q r) as [[Hlt| ->]|Hlt]; [exfalso|reflexivity|exfalso].
  - assert (pred (mprod zero add (slice a 0 (q + 1))) = true) by (apply (Hm (q + 1) r); [lia|lia|apply H1; lia]).
    rewrite Hq2 in H by lia. discriminate.
  - assert (pred (mprod zero add (slice a 0 (r + 1))) = true) by (apply (Hm (r + 1) q); [lia|lia|exact Hq1]).
    rewrite H2 in H by lia. discriminate.
Qed.
Print Assumptions C112_search.

(** C112, range updates and point queries: a FenwickTree of differences beside the original values answers, and panics, exactly as a
    LazySegtree whose maps form an abelian group. *)
Theorem C112_differences : forall {S F : Type} (e : S) (op : S -> S -> S) (mapping : F -> S -> S) (zero : F) (add : F -> F -> F) (neg : F -> F),
  monoid_laws e op -> map_laws op zero mapping add ->
  monoid_laws zero add -> (forall x y, add x y = add y x) -> (forall x, add x (neg x) = zero) ->
  forall (v : list S) (ops : list (rg_op F)), (Z.of_nat (length v) < 2 ^ 32)%Z ->
    Forall (fun o => forall l r f, o = RgApply l r f -> l <= r <= length v) ops ->
    fmap snd (run (rg_fenwick zero add neg mapping v) (fw_new zero (length v)) ops)
    = fmap snd (t ← lt_from e op zero v; run (rg_lazy op zero mapping add) t ops).
Proof.
  intros S F e op mapping zero add neg L ML LM LC LN v ops Hv Ho.
  rewrite (rg_run_ok e op mapping zero add neg LM LC LN (mpl_comp _ _ _ _ ML) v ops _ v _ (fw_new_inv zero add LM (length v))
    (diffs_new mapping zero add LM (mpl_id _ _ _ _ ML) v) Ho).
  pose proof (C04_lazy_refines_array e op zero mapping add L ML v (map rg_call ops) Hv) as H.
  destruct (lt_from e op zero v) as [t| |] eqn:Et; cbn [mbind res_bind] in H |- *.
  - rewrite (rg_lazy_run e op mapping zero add ops t).
    assert (H' := H ltac:(apply Forall_forall; intros o (o' & -> & _)%elem_of_list_fmap; destruct o'; reflexivity)).
    destruct (run (lt_step e op zero mapping add) t (map rg_call ops)) as [[? ?]| |], (run (lz_spec_step e op mapping) v (map rg_call ops)) as [[? ?]| |];
      cbn in H' |- *; congruence.
  - assert (H' := H ltac:(apply Forall_forall; intros o (o' & -> & _)%elem_of_list_fmap; destruct o'; reflexivity)).
    destruct (run (lz_spec_step e op mapping) v (map rg_call ops)) as [[? ?]| |]; cbn in H' |- *; congruence.
  - assert (H' := H ltac:(apply Forall_forall; intros o (o' & -> & _)%elem_of_list_fmap; destruct o'; reflexivity)).
    destruct (run (lz_spec_step e op mapping) v (map rg_call ops)) as [[? ?]| |]; cbn in H' |- *; congruence.
Qed.
Print Assumptions C112_differences.

(** C112, SparseTable and Segtree: the same answer on every non-empty range, for an idempotent operation. *)
Theorem C112_sparse_segtree : forall {T : Type} (e : T) (op : T -> T -> T), monoid_laws e op -> (forall x, op x x = x) ->
  forall (v : list T) (init : T), 0 < length v -> (Z.of_nat (length v) < 2 ^ 32)%Z ->
    exists data t, sp_from v init op = Ok data /\ st_from e op v = Ok t /\
      forall l r, l < r <= length v -> exists x, sp_get op data l r = Ok x /\ st_prod e op t l r = Ok x.
Proof.
  intros T e op L Idem v init Hn Hv.
  destruct (C08_sparse_table op (ml_assoc _ _ L) v init Idem Hn) as (data & Hd & Hg & _); [lia|].
  destruct (st_from_inv e op v Hv) as (t & Ht & I). exists data, t. split; [exact Hd|]. split; [exact Ht|].
  intros l r Hlr. destruct (Hg l r Hlr) as (x & Hx & Hf). exists x. split; [exact Hx|].
  rewrite (prod_ok e op L t v I) by (rewrite (inv_n _ _ _ _ I); lia). f_equal. apply (fold1_mprod e op L _ _ Hf).
Qed.
Print Assumptions C112_sparse_segtree.

(** The hypotheses are met: integers with range additions, entries being pairs (sum, count); a history with updates, an update of an
    empty range, and an answer per call; the search on the same array. *)
Definition ex_pair_op (x y : Z * Z) : Z * Z := (x.1 + y.1, x.2 + y.2)%Z.
Definition ex_pair_map (f : Z) (x : Z * Z) : Z * Z := (x.1 + f * x.2, x.2)%Z.
Example C112_nonvacuous :
  let v := [(5, 1); (1, 1); (4, 1); (2, 1); (3, 1)]%Z in
  let ops := [RgApply 1 4 10%Z; RgGet 3; RgApply 2 2 7%Z; RgApply 0 5 (-3)%Z; RgGet 0; RgGet 2; RgGet 4] in
  monoid_laws (0, 0)%Z ex_pair_op /\ map_laws ex_pair_op 0%Z ex_pair_map Z.add /\
  Forall (fun o => forall l r f, o = RgApply l r f -> l <= r <= length v) ops /\
  fmap snd (run (rg_fenwick 0%Z Z.add Z.opp ex_pair_map v) (fw_new 0%Z 5) ops)
    = Ok [None; Some (12, 1); None; None; Some (2, 1); Some (11, 1); Some (0, 1)]%Z /\
  fmap snd (t ← lt_from (0, 0)%Z ex_pair_op 0%Z v; run (rg_lazy ex_pair_op 0%Z ex_pair_map Z.add) t ops)
    = Ok [None; Some (12, 1); None; None; Some (2, 1); Some (11, 1); Some (0, 1)]%Z /\
  fmap snd (t ← lt_from (0, 0)%Z ex_pair_op 0%Z v; run (rg_lazy ex_pair_op 0%Z ex_pair_map Z.add) t [RgGet 5]) = Panic /\
  fw_laws 0%Z Z.add Z.add /\
  (let ops := [FwAdd 2 4%Z; FwAdd 9 1%Z; FwSum 1 4; FwPref 5] in
   exists t s outs, fw_reached 0%Z Z.add Z.sub Z.add [5; 1; 4; 2; 3]%Z ops t [5; 1; 8; 2; 3]%Z /\
     (s ← st_from 0%Z Z.add [5; 1; 4; 2; 3]%Z; run (sf_step 0%Z Z.add Z.add 5) s ops) = Ok (s, outs) /\ outs = [FwUnit; FwUnit; FwVal 11; FwVal 19]%Z /\
     fw_partition_point 0%Z Z.add t (fun x => (x <=? 14)%Z) = Ok 3 /\ st_max_right 0%Z Z.add s 0 (fun x => (x <=? 14)%Z) = Ok 3).
Proof.
  cbn zeta. split; [split; intros; unfold ex_pair_op; repeat match goal with p : (Z * Z)%type |- _ => destruct p end; cbn; f_equal; lia|].
  split; [split; intros; unfold ex_pair_op, ex_pair_map; repeat match goal with p : (Z * Z)%type |- _ => destruct p end; cbn; f_equal; lia|].
  split; [repeat (apply Forall_cons; split; [intros l r f [=]; subst; cbn; lia|]); constructor|].
  split; [vm_compute; reflexivity|]. split; [vm_compute; reflexivity|]. split; [vm_compute; reflexivity|].
  split; [split; [split|..]; intros; lia|].
  eexists _, _, _. split; [split; eexists; vm_compute; reflexivity|]. split; [vm_compute; reflexivity|].
  split; [reflexivity|]. split; vm_compute; reflexivity.
Qed.
