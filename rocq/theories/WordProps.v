(** Property theorems: the data structures over integers in the release profile, where + , * and - wrap (C74). *)
From Verif Require Import Prelude IntModel UtilModel ArraySpec SegtreeSpec SegtreeModel SegtreeProof SegtreeProps SegtreeChkModel SegtreeChkProps
  FenwickSpec FenwickModel FenwickProps FenwickChkModel FenwickChkProps LazySpec LazyModel LazyProps LazyChkModel LazyChkProps PartialOps WordModel WordSpec WordProof.

(** C74: Additive and Multiplicative are lawful whatever overflows, and the numbers wrap to their values by a homomorphism. *)
Theorem C74_laws : forall T (HT : (0 < it_bits T)%Z),
  monoid_laws (word_of T HT 0) (wadd T HT) /\ monoid_laws (word_of T HT 1) (wmul T HT) /\
  (forall x y, wadd T HT x y = wadd T HT y x) /\ (forall x y, wmul T HT x y = wmul T HT y x) /\ (forall x y, wsub T HT (wadd T HT x y) x = y) /\
  (forall x, wval (word_of T HT x) = wrap T x) /\ (forall x, in_ty T x -> wval (word_of T HT x) = x) /\ (forall y : word T, in_ty T (wval y) /\ word_of T HT (wval y) = y).
Proof.
  intros T HT. split; [apply wadd_laws|]. split; [apply wmul_laws|]. split; [apply wadd_comm|]. split; [apply wmul_comm|]. split.
  { intros x y. revert x; apply (w_onto T HT); intros x. revert y; apply (w_onto T HT); intros y. rewrite <- w_add, <- w_sub. f_equal. lia. }
  split; [reflexivity|]. split; [intros x Hx; apply wrap_id; assumption|]. intros y. split; [apply wval_in|apply of_wval].
Qed.
Print Assumptions C74_laws.

(** The segment tree of sums (of products) answers with the exact sum of the plain array, wrapped once: overflows in between do not matter. *)
Theorem C74_segtree : forall T (HT : (0 < it_bits T)%Z) (v : list Z) (ops : list (sg_op Z)), (Z.of_nat (length v) < 2 ^ 32)%Z ->
  let w := word_of T HT in
  fmap snd (t ← st_from (w 0%Z) (wadd T HT) (map w v); run (st_step (w 0%Z) (wadd T HT)) t (map (sg_op_map w) ops))
    = fmap (map (sg_out_map w)) (fmap snd (run (sg_spec_step 0%Z Z.add) v ops)) /\
  fmap snd (t ← st_from (w 1%Z) (wmul T HT) (map w v); run (st_step (w 1%Z) (wmul T HT)) t (map (sg_op_map w) ops))
    = fmap (map (sg_out_map w)) (fmap snd (run (sg_spec_step 1%Z Z.mul) v ops)).
Proof.
  intros T HT v ops Hv w. split.
  - rewrite (segtree_refines_array _ _ (wadd_laws T HT)) by (rewrite map_length; exact Hv).
    apply (run_hom_snd (sg_spec_step 0%Z Z.add)). apply sg_hom; [reflexivity|apply w_add].
  - rewrite (segtree_refines_array _ _ (wmul_laws T HT)) by (rewrite map_length; exact Hv).
    apply (run_hom_snd (sg_spec_step 1%Z Z.mul)). apply sg_hom; [reflexivity|apply w_mul].
Qed.
Print Assumptions C74_segtree.

(** The searches look at the wrapped sums. *)
Theorem C74_segtree_searches : forall T (HT : (0 < it_bits T)%Z) (v a : list Z) (ops : list (sg_op Z)) t outs outs', (Z.of_nat (length v) < 2 ^ 32)%Z ->
  let w := word_of T HT in
  (t ← st_from (w 0%Z) (wadd T HT) (map w v); run (st_step (w 0%Z) (wadd T HT)) t (map (sg_op_map w) ops)) = Ok (t, outs) ->
  run (sg_spec_step 0%Z Z.add) v ops = Ok (a, outs') ->
  (forall l (f : word T -> bool), l <= length a -> f (w 0%Z) = true ->
     exists r, st_max_right (w 0%Z) (wadd T HT) t l f = Ok r /\ max_right_post 0%Z Z.add a l (fun s => f (w s)) r) /\
  (forall r (f : word T -> bool), r <= length a -> f (w 0%Z) = true ->
     exists l, st_min_left (w 0%Z) (wadd T HT) t r f = Ok l /\ min_left_post 0%Z Z.add a r (fun s => f (w s)) l).
Proof.
  intros T HT v a ops t outs outs' Hv w Ht Ha.
  assert (reached (w 0%Z) (wadd T HT) (map w v) (map (sg_op_map w) ops) t (map w a)) as R.
  { split; [exists outs; exact Ht|]. exists (map (sg_out_map w) outs').
    rewrite (run_hom (sg_spec_step 0%Z Z.add) _ (map w) (sg_op_map w) (sg_out_map w)); [rewrite Ha; reflexivity|]. apply sg_hom; [reflexivity|apply w_add]. }
  assert (forall l r, mprod (w 0%Z) (wadd T HT) (slice (map w a) l r) = w (mprod 0%Z Z.add (slice a l r))) as E.
  { intros l r. rewrite slice_hom. apply mprod_hom; [reflexivity|apply w_add]. }
  split; intros i f Hi Hf.
  - destruct (max_right_reached _ _ (wadd_laws T HT) _ _ _ _ i f R) as [H _]. rewrite map_length in H. destruct (H Hi Hf) as (r & Hr & (P1 & P2 & P3) & _).
    exists r. split; [exact Hr|]. rewrite map_length, !E in *. split; [exact P1|]. split; [exact P2|exact P3].
  - destruct (min_left_reached _ _ (wadd_laws T HT) _ _ _ _ i f R) as [H _]. rewrite map_length in H. destruct (H Hi Hf) as (r & Hr & (P1 & P2 & P3) & _).
    exists r. split; [exact Hr|]. rewrite !E in *. split; [exact P1|]. split; [exact P2|exact P3].
Qed.
Print Assumptions C74_segtree_searches.

Lemma wadd_fw T HT : fw_laws (word_of T HT 0) (wadd T HT) (wadd T HT).
Proof. split; [apply wadd_laws|apply wadd_comm|]. intros x u. rewrite (ml_idl _ _ (wadd_laws T HT)). reflexivity. Qed.

(** The Fenwick tree: the exact prefix and range sums, wrapped once. *)
Theorem C74_fenwick : forall T (HT : (0 < it_bits T)%Z) (v : list Z) (ops : list (fw_op Z Z)),
  let w := word_of T HT in
  fmap snd (t ← fw_from (w 0%Z) (wadd T HT) (map w v); run (fw_step (w 0%Z) (wadd T HT) (wsub T HT) (wadd T HT)) t (map (fw_op_map w) ops))
    = fmap (map (fw_out_map w)) (fmap snd (run (fw_spec_step 0%Z Z.add Z.sub Z.add) v ops)).
Proof.
  intros T HT v ops w. rewrite (fenwick_refines _ _ _ _ (wadd_fw T HT)).
  apply (run_hom_snd (fw_spec_step 0%Z Z.add Z.sub Z.add)). apply fw_hom; [reflexivity|apply w_add|apply w_sub].
Qed.
Print Assumptions C74_fenwick.

(** Range additions and range sums in the lazy segment tree, as in C66_lazy_unsigned_sums: pairs of a sum and a number of terms. *)
Section Sums.
  Context (T : ity) (HT : (0 < it_bits T)%Z).
  Definition ws_op (x y : word T * word T) : word T * word T := (wadd T HT x.1 y.1, wadd T HT x.2 y.2).
  Definition ws_map (f : word T) (x : word T * word T) : word T * word T := (wadd T HT x.1 (wmul T HT f x.2), x.2).
  Definition ws_opc (x y : word T * word T) : res (word T * word T) := a ← dev T HT Z.add x.1 y.1; b ← dev T HT Z.add x.2 y.2; Ok (a, b).
  Definition ws_mapc (f : word T) (x : word T * word T) : res (word T * word T) := p ← dev T HT Z.mul f x.2; a ← dev T HT Z.add x.1 p; Ok (a, x.2).
  Definition ws_of (x : Z * Z) : word T * word T := (word_of T HT x.1, word_of T HT x.2).

  Lemma ws_laws : monoid_laws (ws_of (0, 0)%Z) ws_op.
  Proof.
    pose proof (wadd_laws T HT) as [A L R]. split.
    - intros x y z. unfold ws_op. cbn [fst snd]. rewrite !A. reflexivity.
    - intros [x y]. unfold ws_op, ws_of. cbn [fst snd]. rewrite !L. reflexivity.
    - intros [x y]. unfold ws_op, ws_of. cbn [fst snd]. rewrite !R. reflexivity.
  Qed.
  Lemma ws_maps : map_laws ws_op (word_of T HT 0) ws_map (wadd T HT).
  Proof.
    pose proof (wadd_laws T HT) as [A L R]. split.
    - intros [x y]. unfold ws_map. cbn [fst snd]. rewrite wmul_0_l, R. reflexivity.
    - intros f g [x y]. unfold ws_map. cbn [fst snd]. rewrite wmul_add_r, <- A, (wadd_comm T HT (wmul T HT g y)). reflexivity.
    - intros f [x1 x2] [y1 y2]. unfold ws_map, ws_op. cbn [fst snd]. rewrite wmul_add_l, <- !A. do 2 f_equal. rewrite !A. f_equal. apply wadd_comm.
  Qed.
  Lemma ws_opc_or : or_panics ws_op ws_opc.
  Proof.
    intros x y. unfold ws_opc, ws_op. destruct (dev_add_or T HT x.1 y.1) as [-> | ->]; cbn [mbind res_bind]; [|auto].
    destruct (dev_add_or T HT x.2 y.2) as [-> | ->]; cbn [mbind res_bind]; auto.
  Qed.
  Lemma ws_mapc_or : or_panics ws_map ws_mapc.
  Proof.
    intros f x. unfold ws_mapc, ws_map. destruct (dev_mul_or T HT f x.2) as [-> | ->]; cbn [mbind res_bind]; [|auto].
    destruct (dev_add_or T HT x.1 (wmul T HT f x.2)) as [-> | ->]; cbn [mbind res_bind]; auto.
  Qed.
End Sums.

Lemma no_search_map {A B F G} (h : A -> B) (hf : F -> G) ops : Forall (fun o => is_search o = false) ops -> Forall (fun o => is_search o = false) (map (lz_op_map h hf) ops).
Proof. intros H. apply List.Forall_map. eapply Forall_impl; [exact H|]. intros []; auto. Qed.

Theorem C74_lazy_sums : forall T (HT : (0 < it_bits T)%Z) (v : list (Z * Z)) (ops : list (lz_op (Z * Z) Z)), (Z.of_nat (length v) < 2 ^ 32)%Z ->
  Forall (fun o => is_search o = false) ops ->
  let w := word_of T HT in
  fmap snd (t ← lt_from (ws_of T HT (0, 0)%Z) (ws_op T HT) (w 0%Z) (map (ws_of T HT) v);
            run (lt_step (ws_of T HT (0, 0)%Z) (ws_op T HT) (w 0%Z) (ws_map T HT) (wadd T HT)) t (map (lz_op_map (ws_of T HT) w) ops))
    = fmap (map (lz_out_map (ws_of T HT))) (fmap snd (run (lz_spec_step (0, 0)%Z (fun x y => (x.1 + y.1, x.2 + y.2)%Z) (fun f x => (x.1 + f * x.2, x.2)%Z)) v ops)).
Proof.
  intros T HT v ops Hv Hs w.
  rewrite (C04_lazy_refines_array _ _ _ _ _ (ws_laws T HT) (ws_maps T HT)) by (rewrite ?map_length; auto using no_search_map).
  apply (run_hom_snd (lz_spec_step (0, 0)%Z (fun x y => (x.1 + y.1, x.2 + y.2)%Z) (fun f x => (x.1 + f * x.2, x.2)%Z))). apply lz_hom; [reflexivity| |].
  - intros x y. unfold ws_of, ws_op. cbn [fst snd]. rewrite !w_add. reflexivity.
  - intros f x. unfold ws_of, ws_map. cbn [fst snd]. rewrite w_add, w_mul. reflexivity.
Qed.
Print Assumptions C74_lazy_sums.

(** The two profiles: in the dev profile the answers are those of the release profile, or the program panics. *)
Theorem C74_dev_release : forall T (HT : (0 < it_bits T)%Z),
  let w := word_of T HT in
  (forall v (ops : list (sg_op (word T))), (Z.of_nat (length v) < 2 ^ 32)%Z ->
     let answers := fmap snd (t ← stc_from (w 0%Z) (dev T HT Z.add) v; run (stc_step (w 0%Z) (dev T HT Z.add)) t ops) in
     answers = fmap snd (t ← st_from (w 0%Z) (wadd T HT) v; run (st_step (w 0%Z) (wadd T HT)) t ops) \/ answers = Panic) /\
  (forall v (ops : list (sg_op (word T))), (Z.of_nat (length v) < 2 ^ 32)%Z ->
     let answers := fmap snd (t ← stc_from (w 1%Z) (dev T HT Z.mul) v; run (stc_step (w 1%Z) (dev T HT Z.mul)) t ops) in
     answers = fmap snd (t ← st_from (w 1%Z) (wmul T HT) v; run (st_step (w 1%Z) (wmul T HT)) t ops) \/ answers = Panic) /\
  (forall v (ops : list (fw_op (word T) (word T))),
     let answers := fmap snd (t ← fwc_from (w 0%Z) (dev T HT Z.add) v; run (fwc_step (w 0%Z) (dev T HT Z.add) (dev T HT Z.sub) (dev T HT Z.add)) t ops) in
     answers = fmap snd (t ← fw_from (w 0%Z) (wadd T HT) v; run (fw_step (w 0%Z) (wadd T HT) (wsub T HT) (wadd T HT)) t ops) \/ answers = Panic) /\
  (forall v (ops : list (lz_op (word T * word T) (word T))), (Z.of_nat (length v) < 2 ^ 32)%Z -> Forall (fun o => is_search o = false) ops ->
     let answers := fmap snd (t ← ltc_from (ws_of T HT (0, 0)%Z) (ws_opc T HT) (w 0%Z) v;
                              run (ltc_step (ws_of T HT (0, 0)%Z) (ws_opc T HT) (w 0%Z) (ws_mapc T HT) (dev T HT Z.add)) t ops) in
     answers = fmap snd (t ← lt_from (ws_of T HT (0, 0)%Z) (ws_op T HT) (w 0%Z) v;
                         run (lt_step (ws_of T HT (0, 0)%Z) (ws_op T HT) (w 0%Z) (ws_map T HT) (wadd T HT)) t ops) \/ answers = Panic) /\
  (forall exact x y, fmap wval (dev T HT exact x y) = chk T (exact (wval x) (wval y))).
Proof.
  intros T HT. cbv zeta. split; [|split; [|split; [|split]]].
  - intros v ops Hv. rewrite (segtree_refines_array _ _ (wadd_laws T HT) v ops Hv). apply C64_segtree_never_wrong; [apply wadd_laws|apply dev_add_or|exact Hv].
  - intros v ops Hv. rewrite (segtree_refines_array _ _ (wmul_laws T HT) v ops Hv). apply C64_segtree_never_wrong; [apply wmul_laws|apply dev_mul_or|exact Hv].
  - intros v ops. rewrite (fenwick_refines _ _ (wsub T HT) _ (wadd_fw T HT)). apply C65_fenwick_never_wrong; [apply wadd_fw|apply dev_add_or|apply dev_sub_or|apply dev_add_or].
  - intros v ops Hv Hs. rewrite (C04_lazy_refines_array _ _ _ _ _ (ws_laws T HT) (ws_maps T HT) v ops Hv Hs).
    apply (C66_lazy_never_wrong_array _ _ _ _ (wadd T HT)); [apply ws_laws|apply ws_maps|apply ws_opc_or|apply ws_mapc_or|apply dev_add_or|exact Hv|exact Hs].
  - apply dev_chk.
Qed.
Print Assumptions C74_dev_release.

(** i8: the sums of inner nodes overflow, the answer 100 + 100 - 90 - 90 = 20 does not; the dev profile panics in `from`. *)
Definition H8 : (0 < it_bits i8)%Z. Proof. reflexivity. Defined.
Example C74_nonvacuous :
  let w := word_of i8 H8 in let v := map w [100; 100; -90; -90]%Z in
  fmap (fun x => map (sg_out_map wval) (snd x)) (t ← st_from (w 0%Z) (wadd i8 H8) v; run (st_step (w 0%Z) (wadd i8 H8)) t [SgAllProd; SgProd 0 2; SgSet 1 (w 1%Z); SgProd 0 2])
    = Ok [SgVal 20; SgVal (-56); SgUnit; SgVal 101]%Z /\
  stc_from (w 0%Z) (dev i8 H8 Z.add) v = Panic /\
  fmap (fun x => map (fw_out_map wval) (snd x)) (t ← fw_from (w 0%Z) (wadd i8 H8) v; run (fw_step (w 0%Z) (wadd i8 H8) (wsub i8 H8) (wadd i8 H8)) t [FwPref 2; FwSum 1 4; FwAdd 0 (w 100%Z); FwPref 4])
    = Ok [FwVal (-56); FwVal (-80); FwUnit; FwVal 120]%Z.
Proof. vm_compute. auto. Qed.
