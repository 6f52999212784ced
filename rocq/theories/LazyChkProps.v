(** Property theorem for src/data_structure/lazy_segtree.rs when the operation, the mapping or the composition may panic (C66). *)
From Verif Require Import Prelude IntModel UtilModel ArraySpec SegtreeModel LazySpec LazyModel LazyProof LazyTop LazyProps PartialOps
  LazyChkModel LazyChkProof SegtreeChkProps LazyChkGood LazyChkTop.

(** Over functions that compute what lawful total functions say or panic (checked machine arithmetic), a history of all calls,
    searches included, answers as the plain array allows or panics: it never returns a wrong answer, whichever tags were
    pending and in whatever order they were combined, and it never fails to return. *)
Theorem C66_lazy_never_wrong : forall {S F : Type} (e : S) (op : S -> S -> S) (idm : F) (mapping : F -> S -> S) (comp : F -> F -> F),
  monoid_laws e op -> map_laws op idm mapping comp ->
  forall (opc : S -> S -> res S) (mappingc : F -> S -> res S) (compc : F -> F -> res F),
  or_panics op opc -> or_panics mapping mappingc -> or_panics comp compc ->
  forall (v : list S) (ops : list (lz_op S F)), (Z.of_nat (length v) < 2 ^ 32)%Z ->
  let answers := fmap snd (t ← ltc_from e opc idm v; run (ltc_step e opc idm mappingc compc) t ops) in
  lz_allowed_run e op mapping v ops answers \/ answers = Panic.
Proof.
  intros S F e op idm mapping comp L ML opc mappingc compc O OM OC v ops Hv answers.
  assert (le_res answers (fmap snd (t ← lt_from e op idm v; run (lt_step e op idm mapping comp) t ops))) as [E|E].
  - apply le_fmap, le_bind; [apply le_lt_from; exact O|]. intros t. apply le_run. intros s o. apply le_lt_step; assumption.
  - left. rewrite E. apply (C05_lazy_searches e op idm mapping comp L ML v ops Hv).
  - right. exact E.
Qed.
Print Assumptions C66_lazy_never_wrong.

(** The same for the other two constructors: new(n) is the array of n units, default() the empty array. *)
Theorem C66_lazy_constructors : forall {S F : Type} (e : S) (op : S -> S -> S) (idm : F) (mapping : F -> S -> S) (comp : F -> F -> F),
  monoid_laws e op -> map_laws op idm mapping comp ->
  forall (opc : S -> S -> res S) (mappingc : F -> S -> res S) (compc : F -> F -> res F),
  or_panics op opc -> or_panics mapping mappingc -> or_panics comp compc ->
  forall (n : nat) (ops : list (lz_op S F)), (Z.of_nat n < 2 ^ 32)%Z ->
  let answers start := fmap snd (t ← start; run (ltc_step e opc idm mappingc compc) t ops) in
  (lz_allowed_run e op mapping (replicate n e) ops (answers (ltc_new e opc idm n)) \/ answers (ltc_new e opc idm n) = Panic) /\
  (lz_allowed_run e op mapping [] ops (answers (ltc_default e opc idm)) \/ answers (ltc_default e opc idm) = Panic) /\
  exists t, ltc_default e opc idm = Ok t.
Proof.
  intros S F e op idm mapping comp L ML opc mappingc compc O OM OC n ops Hn answers. split; [|split].
  - apply (C66_lazy_never_wrong e op idm mapping comp L ML opc mappingc compc O OM OC). rewrite replicate_length. exact Hn.
  - apply (C66_lazy_never_wrong e op idm mapping comp L ML opc mappingc compc O OM OC []). cbn. lia.
  - eexists. vm_compute. reflexivity.
Qed.
Print Assumptions C66_lazy_constructors.

(** Without searches: the answers of the plain array, or a panic. *)
Theorem C66_lazy_never_wrong_array : forall {S F : Type} (e : S) (op : S -> S -> S) (idm : F) (mapping : F -> S -> S) (comp : F -> F -> F),
  monoid_laws e op -> map_laws op idm mapping comp ->
  forall (opc : S -> S -> res S) (mappingc : F -> S -> res S) (compc : F -> F -> res F),
  or_panics op opc -> or_panics mapping mappingc -> or_panics comp compc ->
  forall (v : list S) (ops : list (lz_op S F)), (Z.of_nat (length v) < 2 ^ 32)%Z -> Forall (fun o => is_search o = false) ops ->
  let answers := fmap snd (t ← ltc_from e opc idm v; run (ltc_step e opc idm mappingc compc) t ops) in
  answers = fmap snd (run (lz_spec_step e op mapping) v ops) \/ answers = Panic.
Proof.
  intros S F e op idm mapping comp L ML opc mappingc compc O OM OC v ops Hv Hs answers.
  rewrite <- (C04_lazy_refines_array e op idm mapping comp L ML v ops Hv Hs).
  apply le_fmap, le_bind; [apply le_lt_from; exact O|]. intros t. apply le_run. intros s o. apply le_lt_step; assumption.
Qed.
Print Assumptions C66_lazy_never_wrong_array.

(** When it does not panic: [opc] computes products that are [goodS], [mapc] computes images that are [goodS], [compc] computes
    compositions that are [goodF].  If at every moment of the history every range of the plain array has a good product, and for
    every position the composition of every subsequence of the maps given to apply_range over that position is good, then the
    answers are the ones the plain array allows: the only panics are those of calls out of bounds and of searches whose
    predicate rejects the unit.  Values left stale under pending maps, maps waiting at several levels, and maps composed when
    a push meets an older one are all covered by these two conditions. *)
Theorem C66_lazy_checked : forall {S F : Type} (e : S) (op : S -> S -> S) (idm : F) (mapping : F -> S -> S) (comp : F -> F -> F),
  monoid_laws e op -> map_laws op idm mapping comp -> monoid_laws idm comp ->
  forall (goodS : S -> Prop) (goodF : F -> Prop) (opc : S -> S -> res S) (mappingc : F -> S -> res S) (compc : F -> F -> res F),
  (forall x y, goodS (op x y) -> opc x y = Ok (op x y)) ->
  (forall f x, goodF f -> goodS x -> goodS (mapping f x) -> mappingc f x = Ok (mapping f x)) ->
  (forall f g, goodF f -> goodF g -> goodF (comp f g) -> compc f g = Ok (comp f g)) ->
  forall (v : list S) (ops : list (lz_op S F)), (Z.of_nat (length v) < 2 ^ 32)%Z ->
  always (lz_moves e op mapping) (ranges_good e op goodS) v ops ->
  (forall p w, w `sublist_of` maps_on p ops -> goodF (mprod idm comp w)) ->
  Forall (fun o => match o with LzApply _ f => goodF f | _ => True end) ops ->
  lz_allowed_run e op mapping v ops (fmap snd (t ← ltc_from e opc idm v; run (ltc_step e opc idm mappingc compc) t ops)).
Proof.
  intros S F e op idm mapping comp L ML LC goodS goodF opc mappingc compc AO AM AC v ops Hv HA HM Ho.
  destruct (from_good e op idm mapping comp L ML goodS opc AO v Hv (always_hd _ _ _ _ HA)) as (t & -> & I).
  cbn [mbind res_bind].
  refine (run_good e op idm mapping comp L ML LC goodS goodF opc mappingc compc AO AM AC ops t v _ I HA _ Ho).
  intros p w Hw. apply (HM p). rewrite app_nil_r in Hw. exact Hw.
Qed.
Print Assumptions C66_lazy_checked.

(** Without searches the answers (and the panics) are exactly those of the plain array. *)
Theorem C66_lazy_checked_array : forall {S F : Type} (e : S) (op : S -> S -> S) (idm : F) (mapping : F -> S -> S) (comp : F -> F -> F),
  monoid_laws e op -> map_laws op idm mapping comp -> monoid_laws idm comp ->
  forall (goodS : S -> Prop) (goodF : F -> Prop) (opc : S -> S -> res S) (mappingc : F -> S -> res S) (compc : F -> F -> res F),
  (forall x y, goodS (op x y) -> opc x y = Ok (op x y)) ->
  (forall f x, goodF f -> goodS x -> goodS (mapping f x) -> mappingc f x = Ok (mapping f x)) ->
  (forall f g, goodF f -> goodF g -> goodF (comp f g) -> compc f g = Ok (comp f g)) ->
  forall (v : list S) (ops : list (lz_op S F)), (Z.of_nat (length v) < 2 ^ 32)%Z -> Forall (fun o => is_search o = false) ops ->
  always (lz_spec_step e op mapping) (ranges_good e op goodS) v ops ->
  (forall p w, w `sublist_of` maps_on p ops -> goodF (mprod idm comp w)) ->
  Forall (fun o => match o with LzApply _ f => goodF f | _ => True end) ops ->
  fmap snd (t ← ltc_from e opc idm v; run (ltc_step e opc idm mappingc compc) t ops) = fmap snd (run (lz_spec_step e op mapping) v ops).
Proof.
  intros S F e op idm mapping comp L ML LC goodS goodF opc mappingc compc AO AM AC v ops Hv Hs HA HM Ho.
  apply allowed_run_eq; [exact Hs|]. apply (C66_lazy_checked e op idm mapping comp L ML LC goodS goodF); try assumption.
  clear -HA Hs. revert v HA. induction ops as [|o ops IH]; intros v HA; [exact HA|]. cbn [always] in *.
  apply Forall_cons in Hs as [Ho Hs]. destruct HA as [H HA]. split; [exact H|]. unfold lz_moves. rewrite Ho.
  destruct (lz_spec_step e op mapping v o) as [[a' out]| |]; auto.
Qed.
Print Assumptions C66_lazy_checked_array.

(** Sums of a machine integer type with the number of terms, and maps that add a value to every term. *)
Definition su_op (x y : Z * Z) : Z * Z := (x.1 + y.1, x.2 + y.2)%Z.
Definition su_map (f : Z) (x : Z * Z) : Z * Z := (x.1 + f * x.2, x.2)%Z.
Definition su_opc (T : ity) (x y : Z * Z) : res (Z * Z) := a ← iadd T x.1 y.1; b ← iadd T x.2 y.2; Ok (a, b).
Definition su_mapc (T : ity) (f : Z) (x : Z * Z) : res (Z * Z) := p ← imul T f x.2; a ← iadd T x.1 p; Ok (a, x.2).

Lemma su_monoid : monoid_laws (0, 0)%Z su_op.
Proof. split; unfold su_op; intros; repeat match goal with x : (Z * Z)%type |- _ => destruct x end; cbn [fst snd]; f_equal; lia. Qed.
Lemma su_maps : map_laws su_op 0%Z su_map Z.add.
Proof. split; unfold su_op, su_map; intros; repeat match goal with x : (Z * Z)%type |- _ => destruct x end; cbn [fst snd]; f_equal; lia. Qed.
Lemma chk_or T x : chk T x = Ok x \/ chk T x = Panic.
Proof. unfold chk. destruct (_ && _); auto. Qed.
Lemma su_opc_or T : or_panics su_op (su_opc T).
Proof.
  intros [x1 x2] [y1 y2]. unfold su_opc, su_op, iadd. cbn [fst snd]. destruct (chk_or T (x1 + y1)) as [-> | ->]; cbn [mbind res_bind]; [|auto].
  destruct (chk_or T (x2 + y2)) as [-> | ->]; cbn [mbind res_bind]; auto.
Qed.
Lemma su_mapc_or T : or_panics su_map (su_mapc T).
Proof.
  intros f [x1 x2]. unfold su_mapc, su_map, iadd, imul. cbn [fst snd]. destruct (chk_or T (f * x2)) as [-> | ->]; cbn [mbind res_bind]; [|auto].
  destruct (chk_or T (x1 + f * x2)) as [-> | ->]; cbn [mbind res_bind]; auto.
Qed.
Lemma su_comp_or T : or_panics Z.add (iadd T).
Proof. intros f g. apply chk_or. Qed.

(** The first history answers; in the second the total passes 255 in the second apply_range, which panics. *)
Example C66_nonvacuous :
  let start := ltc_from (0, 0)%Z (su_opc u8) 0%Z [(10, 1); (20, 1); (30, 1); (40, 1); (50, 1)]%Z in
  let step := ltc_step (0, 0)%Z (su_opc u8) 0%Z (su_mapc u8) (iadd u8) in
  fmap snd (t ← start; run step t [LzApplyRange 0 4 5%Z; LzApplyRange 1 5 6%Z; LzSet 2 (7, 1)%Z; LzGet 1; LzProd 1 5])
    = Ok [LzUnit; LzUnit; LzUnit; LzVal (31, 1)%Z; LzVal (145, 4)%Z] /\
  fmap snd (t ← start; run step t [LzApplyRange 0 4 20%Z; LzApplyRange 1 5 10%Z]) = Panic.
Proof. vm_compute. split; reflexivity. Qed.

Lemma su_prod a : mprod (0, 0)%Z su_op a = (mprod 0 Z.add (map fst a), mprod 0 Z.add (map snd a))%Z.
Proof. induction a as [|[x y] a IH]; [reflexivity|]. cbn. unfold mprod in IH. rewrite IH. reflexivity. Qed.

Lemma slice_map {A B} (f : A -> B) a l r : map f (slice a l r) = slice (map f a) l r.
Proof. unfold slice. rewrite <- firstn_map, <- skipn_map. reflexivity. Qed.

Lemma su_ranges T a : it_min T = 0%Z ->
  Forall (fun x => 0 <= x.1 /\ 0 <= x.2)%Z a /\ (mprod 0 Z.add (map fst a) <= it_max T)%Z /\ (mprod 0 Z.add (map snd a) <= it_max T)%Z ->
  ranges_good (0, 0)%Z su_op (fun x => in_ty T x.1 /\ in_ty T x.2) a.
Proof.
  intros Hmin (HN & H1 & H2) l r _. rewrite su_prod, !slice_map. cbn [fst snd]. unfold in_ty. rewrite Hmin.
  assert (N1 : Forall (fun x => 0 <= x)%Z (map fst a)) by (apply List.Forall_map; eapply Forall_impl; [exact HN|]; intros x Hx; apply Hx).
  assert (N2 : Forall (fun x => 0 <= x)%Z (map snd a)) by (apply List.Forall_map; eapply Forall_impl; [exact HN|]; intros x Hx; apply Hx).
  pose proof (sum_slice_le _ l r N1). pose proof (sum_slice_le _ l r N2). lia.
Qed.

Lemma sum_sublist_le (w h : list Z) : w `sublist_of` h -> Forall (fun x => 0 <= x)%Z h ->
  (0 <= mprod 0 Z.add w <= mprod 0 Z.add h)%Z.
Proof.
  unfold mprod. induction 1 as [|x w h Hs IH|x w h Hs IH]; intros Hh; cbn; [lia| |]; apply Forall_cons in Hh as [Hx Hh]; specialize (IH Hh); lia.
Qed.

Lemma maps_on_nonneg T p (ops : list (lz_op (Z * Z) Z)) : it_min T = 0%Z ->
  Forall (fun o => match o with LzApply _ f => in_ty T f | LzApplyRange _ _ f => (0 <= f)%Z | _ => True end) ops ->
  Forall (fun x => 0 <= x)%Z (maps_on p ops).
Proof.
  intros _ H. apply Forall_forall. intros x Hx. unfold maps_on in Hx. apply elem_of_list_In, in_rev, in_flat_map in Hx as (o & Ho & Hx).
  apply elem_of_list_In in Ho. rewrite Forall_forall in H. specialize (H o Ho).
  destruct o; cbn in Hx; try contradiction. destruct (_ && _); cbn in Hx; [|contradiction]. destruct Hx as [<-|[]]. exact H.
Qed.

Lemma always_impl {St Op Out} (step : St -> Op -> res (St * Out)) (P Q : St -> Prop) s ops :
  (forall s, P s -> Q s) -> always step P s ops -> always step Q s ops.
Proof.
  intros H. revert s. induction ops as [|o ops IH]; intros s [HP HA]; split; auto.
  destruct (step s o) as [[s' out]| |]; auto.
Qed.

(** Range sums with range additions in any unsigned type: as long as the values and the maps are non-negative, the total and the
    number of terms fit, and at every position the maps added to it add up to a value that fits, nothing overflows. *)
Theorem C66_lazy_unsigned_sums : forall (T : ity), it_signed T = false ->
  forall (v : list (Z * Z)) (ops : list (lz_op (Z * Z) Z)), (Z.of_nat (length v) < 2 ^ 32)%Z ->
  always (lz_moves (0, 0)%Z su_op su_map)
    (fun a => Forall (fun x => 0 <= x.1 /\ 0 <= x.2)%Z a /\
       (mprod 0 Z.add (map fst a) <= it_max T)%Z /\ (mprod 0 Z.add (map snd a) <= it_max T)%Z) v ops ->
  Forall (fun o => match o with LzApply _ f => in_ty T f | LzApplyRange _ _ f => (0 <= f)%Z | _ => True end) ops ->
  (forall p, (mprod 0 Z.add (maps_on p ops) <= it_max T)%Z) ->
  lz_allowed_run (0, 0)%Z su_op su_map v ops
    (fmap snd (t ← ltc_from (0, 0)%Z (su_opc T) 0%Z v; run (ltc_step (0, 0)%Z (su_opc T) 0%Z (su_mapc T) (iadd T)) t ops)).
Proof.
  intros T HT v ops Hv HA Ho HM.
  assert (Hmin : it_min T = 0%Z) by (unfold it_min; rewrite HT; reflexivity).
  apply (C66_lazy_checked (0, 0)%Z su_op 0%Z su_map Z.add su_monoid su_maps zadd_laws
    (fun x => in_ty T x.1 /\ in_ty T x.2) (in_ty T)); [| | |exact Hv| | |].
  - intros [x1 x2] [y1 y2] [E1 E2]. cbn in E1, E2. unfold su_opc. cbn [fst snd]. rewrite (iadd_ok T x1 y1 E1). cbn [mbind res_bind].
    rewrite (iadd_ok T x2 y2 E2). reflexivity.
  - intros f [x1 x2] Hf [E1 E2] [E3 E4]. cbn in E1, E2, E3, E4. unfold in_ty in *. unfold su_mapc. cbn [fst snd].
    rewrite (imul_ok T f x2) by (unfold in_ty; nia). cbn [mbind res_bind]. rewrite (iadd_ok T x1) by (unfold in_ty; lia). reflexivity.
  - intros f g _ _ Hfg. apply iadd_ok. exact Hfg.
  - apply (always_impl _ _ _ _ _ (fun a => su_ranges T a Hmin) HA).
  - intros p w Hw. pose proof (maps_on_nonneg T p ops Hmin Ho) as Hn.
    pose proof (sum_sublist_le _ _ Hw Hn). specialize (HM p). unfold in_ty. rewrite Hmin. lia.
  - eapply Forall_impl; [exact Ho|]. intros [] Hx; cbn in *; auto.
Qed.
Print Assumptions C66_lazy_unsigned_sums.

(** A history that meets the hypotheses in u8: maps wait at several levels and are composed; the total reaches 245. *)
Example C66_checked_nonvacuous :
  let v := [(10, 1); (20, 1); (30, 1); (40, 1); (50, 1)]%Z in
  let ops := [LzApplyRange 0 4 5%Z; LzApplyRange 1 5 6%Z; LzApplyRange 0 5 7%Z; LzGet 1; LzApply 4 16%Z; LzProd 1 5] in
  always (lz_moves (0, 0)%Z su_op su_map)
    (fun a => Forall (fun x => 0 <= x.1 /\ 0 <= x.2)%Z a /\
       (mprod 0 Z.add (map fst a) <= it_max u8)%Z /\ (mprod 0 Z.add (map snd a) <= it_max u8)%Z) v ops /\
  (forall p, (mprod 0 Z.add (maps_on p ops) <= it_max u8)%Z) /\
  fmap snd (t ← ltc_from (0, 0)%Z (su_opc u8) 0%Z v; run (ltc_step (0, 0)%Z (su_opc u8) 0%Z (su_mapc u8) (iadd u8)) t ops)
    = Ok [LzUnit; LzUnit; LzUnit; LzVal (38, 1)%Z; LzUnit; LzVal (223, 4)%Z].
Proof.
  cbv zeta. split; [|split; [|vm_compute; reflexivity]].
  - cbn. repeat split; repeat constructor; try discriminate.
  - intros p. do 5 (destruct p as [|p]; [vm_compute; discriminate|]). vm_compute. discriminate.
Qed.
