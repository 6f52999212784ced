(** A client assigning the public field pos of HLD: main theorems (C137). *)
From Verif Require Import Prelude UtilModel ArraySpec LazySpec LazyModel LazyTop LazyProps TreeSpec TreeProof LiftProps HldSpec HldModel HldTree HldProof HldOps HldProps FieldModel FieldProof HldPosModel HldPosSpec HldPosProof.

Lemma lazy_reach {S F} (e : S) op (idm : F) mapping comp : monoid_laws e op -> map_laws op idm mapping comp ->
  forall lops t0 a0 t louts, LInv e op idm mapping t0 a0 -> run (lt_step e op idm mapping comp) t0 lops = Ok (t, louts) -> exists a, LInv e op idm mapping t a /\ length a = length a0.
Proof.
  intros L ML. induction lops as [|o lops IH]; intros t0 a0 t louts I E; cbn [run] in E; [injection E as <- _; eauto|].
  pose proof (step_allowed e op idm mapping comp L ML t0 a0 I o) as St.
  destruct (lt_step e op idm mapping comp t0 o) as [[t1 out]| |]; cbn [mbind res_bind] in E; try discriminate. destruct St as (a1 & A1 & I1).
  destruct (run (lt_step e op idm mapping comp) t1 lops) as [[t2 outs2]| |] eqn:E2; cbn [mbind res_bind] in E; try discriminate. injection E as <- _.
  destruct (IH t1 a1 t2 outs2 I1 E2) as (a & I2 & La). exists a. split; [exact I2|]. rewrite La. eapply allowed_length; eauto.
Qed.
Lemma from_small {S F} (e : S) op (idm : F) (a : list S) t : lt_from e op idm a = Ok t -> (Z.of_nat (length a) < 2 ^ 32)%Z.
Proof.
  intros H. destruct (Z.lt_ge_cases (Z.of_nat (length a)) (2 ^ 32)) as [|Hge]; [assumption|]. exfalso. rewrite (C04_lazy_from_too_long e op idm a Hge) in H. discriminate.
Qed.

(** C137: after any history, replace data by any LazySegtree of any length m after any history of its own, and pos by any layout on m
    places.  Then every history of calls on paths and vertices does what HldSpec allows on the values held at the places of the
    vertices, and the other places of data keep their values. *)
Theorem C137_pos : forall {S F : Type} (e : S) (op : S -> S -> S) (idm : F) (mapping : F -> S -> S) (comp : F -> F -> F),
  monoid_laws e op -> map_laws op idm mapping comp ->
  forall g root w x, hld_built e op idm g root w x ->
  forall ops y z outs, x = Ok y -> run (hld_step e op idm mapping comp) y ops = Ok (z, outs) ->
  exists ord, visiting_order g root ord /\ places ord (h_pos (hd_tree z)) /\
  forall a0 lops t0 t louts p, lt_from e op idm a0 = Ok t0 -> run (lt_step e op idm mapping comp) t0 lops = Ok (t, louts) ->
  layout g (h_pos (hd_tree z)) p (length a0) ->
  exists w', length w' = length g /\ (forall v i, p !! v = Some i -> exists c, w' !! v = Some c /\ snd <$> lt_get idm mapping comp t i = Ok c) /\
    forall ops', Forall path_call ops' ->
      hld_allowed_run e op mapping g root ord (by_pieces g root ord) w' ops' (snd <$> run (hld_step e op idm mapping comp) (with_pos (with_data z t) p) ops') /\
      forall z' outs', run (hld_step e op idm mapping comp) (with_pos (with_data z t) p) ops' = Ok (z', outs') ->
        forall i, i < length a0 -> i ∉ p -> exists c, snd <$> lt_get idm mapping comp t i = Ok c /\ snd <$> lt_get idm mapping comp (hd_data z') i = Ok c.
Proof.
  intros S F e op idm mapping comp L ML g root w x H ops y z outs -> Hrun.
  destruct (hld_built_ok e op idm mapping comp g root w _ L ML H) as (y' & ord & [= <-] & B). pose proof H as (T & Hr & Hn & _).
  destruct (built_reach e op idm mapping comp L ML g root ops y w ord z outs B Hrun) as (w1 & B1).
  assert (visiting_order g root ord /\ places ord (h_pos (hd_tree z))) as [V Pl] by (eapply built_ord; eauto).
  exists ord. split; [exact V|]. split; [exact Pl|]. intros a0 lops t0 t louts p E0 Et Lay.
  destruct (from_inv e op idm mapping comp L ML a0 (from_small e op idm a0 t0 E0)) as (t0' & E0' & I0). rewrite E0 in E0'. injection E0' as <-.
  destruct (lazy_reach e op idm mapping comp L ML lops t0 a0 t louts I0 Et) as (A & IA & LA).
  pose proof B1 as (par & dep & hv & pos & posr & h & R & D & Hord & [Hx _]). rewrite Hx in Lay.
  set (w' := map (fun v => default e (A !! P p v)) (seq 0 (length g))). assert (Lw : length w' = length g) by (unfold w'; rewrite map_length, seq_length; reflexivity).
  assert (Hw : forall v, v < length g -> w' !! v = A !! P p v).
  { intros v Hv. unfold w'. change (map ?f ?l) with (f <$> l). rewrite list_lookup_fmap, lookup_seq_lt by exact Hv. cbn. destruct (lookup_lt_is_Some_2 A (P p v)) as [c ->]; [|reflexivity]. rewrite LA. apply (P_lt g h p (length a0) Lay v Hv). }
  exists w'. split; [exact Lw|]. split.
  { intros v i Hi. assert (Hv : v < length g) by (apply lookup_lt_Some in Hi; rewrite (proj1 Lay) in Hi; exact Hi). rewrite (P_get g h p (length a0) Lay v Hv) in Hi. injection Hi as <-.
    destruct (lookup_lt_is_Some_2 A (P p v)) as [c Hc]; [rewrite LA; apply (P_lt g h p (length a0) Lay v Hv)|]. exists c. rewrite (Hw v Hv). split; [exact Hc|]. destruct (get_ok e op idm mapping comp L ML t A IA _ c Hc) as (t' & -> & _). reflexivity. }
  intros ops' Ho. destruct (wof_onto e g root par dep h hv pos posr D ord Hord w' Lw) as (a & La & Ea).
  destruct (from_inv e op idm mapping comp L ML a) as (t1 & _ & I1); [rewrite La; exact Hn|].
  assert (Rl : rel e op idm mapping g pos p (length a0) A t1 t).
  { exists a, A. split; [exact I1|]. split; [exact IA|]. split; [exact La|]. split; [exact LA|]. split; [|reflexivity]. intros v Hv. rewrite <- (wof_lookup e g root par dep h hv pos posr D a v La Hv), Ea. apply Hw, Hv. }
  pose proof (run_sim e op idm mapping comp L ML g root par dep R h hv pos posr D p (length a0) Lay A ops' (Hld t1 h) (with_pos (with_data z t) p) Ho eq_refl) as Sm.
  specialize (Sm ltac:(unfold with_pos; cbn [hd_tree with_data]; rewrite Hx; reflexivity) Rl).
  assert (Al : hld_allowed_run e op mapping g root ord (by_pieces g root ord) w' ops' (snd <$> run (hld_step e op idm mapping comp) (Hld t1 h) ops')).
  { eapply run_ok; eauto. split; [reflexivity|]. exists a. auto. }
  unfold sim in Sm. destruct (run (hld_step e op idm mapping comp) (Hld t1 h) ops') as [[z1 o1]| |], (run (hld_step e op idm mapping comp) (with_pos (with_data z t) p) ops') as [[z2 o2]| |]; try contradiction.
  - cbn [fst snd] in Sm. destruct Sm as (_ & (a2 & A2 & _ & J2 & (_ & L2 & _ & Ho2)) & <-). split; [exact Al|]. intros z' outs' [= <- <-] i Hi Hni.
    destruct (lookup_lt_is_Some_2 A i) as [c Hc]; [lia|]. exists c. destruct (get_ok e op idm mapping comp L ML t A IA _ c Hc) as (t' & -> & _). split; [reflexivity|]. rewrite <- (Ho2 i Hni) in Hc. destruct (get_ok e op idm mapping comp L ML _ A2 J2 _ c Hc) as (t'' & -> & _). reflexivity.
  - split; [exact Al|]. discriminate.
  - split; [exact Al|]. discriminate.
Qed.
Print Assumptions C137_pos.

(** All places moved by k: a layout; but apply_subtree and subtree_prod read the private field pos_r, which stays: subtree_prod
    misses the last k vertices of the subtree, and panics if it has fewer than k. *)
Theorem C137_shift : forall {S F : Type} (e : S) (op : S -> S -> S) (idm : F) (mapping : F -> S -> S) (comp : F -> F -> F),
  monoid_laws e op -> map_laws op idm mapping comp ->
  forall g root w x, hld_built e op idm g root w x ->
  forall ops y z outs, x = Ok y -> run (hld_step e op idm mapping comp) y ops = Ok (z, outs) ->
  exists ord, visiting_order g root ord /\ places ord (h_pos (hd_tree z)) /\
  forall k a t, length g + k <= length a -> lt_from e op idm a = Ok t -> let p := map (fun i => i + k) (h_pos (hd_tree z)) in
  layout g (h_pos (hd_tree z)) p (length a) /\
  forall u, u < length g -> exists l, sublist l ord /\ (forall v, v ∈ l <-> v < length g /\ ancestor g root u v) /\
    snd <$> subtree_prod e op idm mapping comp (with_pos (with_data z t) p) u =
    if k <=? length l then Ok (mprod e op (map (fun v => default e (i ← p !! v; a !! i)) (take (length l - k) l))) else Panic.
Proof.
  intros S F e op idm mapping comp L ML g root w x H ops y z outs -> Hrun.
  destruct (hld_built_ok e op idm mapping comp g root w _ L ML H) as (y' & ord & [= <-] & B). pose proof H as (T & Hr & Hn & _).
  destruct (built_reach e op idm mapping comp L ML g root ops y w ord z outs B Hrun) as (w1 & B1).
  assert (visiting_order g root ord /\ places ord (h_pos (hd_tree z))) as [V Pl] by (eapply built_ord; eauto).
  exists ord. split; [exact V|]. split; [exact Pl|]. intros k a t La Et p. pose proof B1 as (par & dep & hv & pos & posr & h & R & D & Hord & [Hx _]).
  destruct (from_inv e op idm mapping comp L ML a (from_small e op idm a t Et)) as (t' & E' & I). rewrite Et in E'. injection E' as <-.
  pose proof (ord_length g pos ord Hord) as Lo.
  assert (Hp : forall v, v < length g -> p !! v = Some (pos v + k)) by (intros v Hv; unfold p; rewrite Hx; change (map ?f ?l) with (f <$> l); rewrite list_lookup_fmap, (d_pos _ _ _ _ _ _ _ _ D v Hv); reflexivity).
  assert (Lp : length p = length g) by (unfold p; rewrite Hx, map_length; apply (hw_pos _ _ (d_wf _ _ _ _ _ _ _ _ D))).
  assert (Hlt : forall v i, p !! v = Some i -> v < length g) by (intros v i Hi; apply lookup_lt_Some in Hi; lia).
  split.
  - split; [exact Lp|]. split; [|split].
    + apply NoDup_alt. intros u v i Hu Hv. pose proof (Hlt u i Hu) as Hun. pose proof (Hlt v i Hv) as Hvn. rewrite (Hp u Hun) in Hu. rewrite (Hp v Hvn) in Hv. apply (d_inj _ _ _ _ _ _ _ _ D); try assumption. injection Hu as Hu. injection Hv as Hv. lia.
    + intros v i Hi. pose proof (Hlt v i Hi) as Hvn. rewrite (Hp v Hvn) in Hi. injection Hi as <-. pose proof (d_lt _ _ _ _ _ _ _ _ D v Hvn). lia.
    + intros u v i j q _ Hu Hv Hi Hj. pose proof (Hlt u i Hi) as Hun. pose proof (Hlt v j Hj) as Hvn. rewrite (Hp u Hun) in Hi. rewrite (Hp v Hvn) in Hj. rewrite Hx in Hu, Hv. rewrite (d_pos _ _ _ _ _ _ _ _ D u Hun) in Hu. rewrite (d_pos _ _ _ _ _ _ _ _ D v Hvn) in Hv. injection Hu as Hu. injection Hv as Hv. injection Hi as Hi. injection Hj as Hj. lia.
  - intros u Hu. pose proof (d_lt _ _ _ _ _ _ _ _ D u Hu) as [_ Hru]. pose proof (proj2 (d_nest _ _ _ _ _ _ _ _ D u u Hu Hu) (anc_refl par u)) as Hlr. exists (slice ord (pos u) (posr u)).
    assert (Ll : length (slice ord (pos u) (posr u)) = posr u - pos u) by (apply slice_length; rewrite Lo; lia).
    assert (Sl : forall i z', slice ord (pos u) (posr u) !! i = Some z' -> z' < length g /\ pos z' = pos u + i).
    { intros i z' Hi. pose proof (lookup_lt_Some _ _ _ Hi). rewrite slice_lookup in Hi by lia. apply Hord in Hi. exact Hi. }
    split; [unfold slice; etrans; [apply sublist_take|apply sublist_drop]|]. split.
    + intros v. rewrite elem_of_list_lookup. split.
      * intros [i Hi]. pose proof (lookup_lt_Some _ _ _ Hi) as Hil. destruct (Sl i v Hi) as [Hv Hpv]. split; [exact Hv|]. apply (ancestor_iff _ _ _ _ R u v Hu Hv), (d_nest _ _ _ _ _ _ _ _ D u v Hu Hv). lia.
      * intros [Hv A]. apply (ancestor_iff _ _ _ _ R u v Hu Hv), (d_nest _ _ _ _ _ _ _ _ D u v Hu Hv) in A. exists (pos v - pos u). rewrite slice_lookup by lia. apply Hord. split; [exact Hv|lia].
    + unfold subtree_prod, with_pos. cbn [hd_tree hd_data with_data h_pos h_posr]. rewrite (vget_ok _ _ _ (Hp u Hu)). cbn [mbind res_bind]. rewrite Hx. rewrite (vget_ok _ _ _ (d_posr _ _ _ _ _ _ _ _ D u Hu)). cbn [mbind res_bind]. rewrite Ll. destruct (Nat.leb_spec k (posr u - pos u)) as [Hk|Hk].
      * destruct (prod_ok e op idm mapping comp L ML t a I (pos u + k) (posr u)) as (t2 & -> & _); [rewrite (li_n _ _ _ _ _ _ I); lia|]. cbn. f_equal. f_equal. apply list_eq. intros i. change (map ?f ?l) with (f <$> l). rewrite list_lookup_fmap.
        destruct (Nat.lt_ge_cases i (posr u - pos u - k)) as [Hi|Hi].
        -- rewrite lookup_take by exact Hi. rewrite (slice_lookup a) by lia. destruct (lookup_lt_is_Some_2 (slice ord (pos u) (posr u)) i) as [v Hv]; [lia|]. rewrite Hv. destruct (Sl i v Hv) as [Hvn Hpv]. cbn. rewrite (Hp v Hvn). cbn. rewrite Hpv. replace (pos u + i + k) with (pos u + k + i) by lia. destruct (lookup_lt_is_Some_2 a (pos u + k + i)) as [c ->]; [lia|reflexivity].
        -- rewrite lookup_take_ge by exact Hi. rewrite lookup_ge_None_2; [reflexivity|]. rewrite slice_length; lia.
      * unfold lt_prod. destruct (Nat.leb_spec (pos u + k) (posr u)); [lia|]. reflexivity.
Qed.
Print Assumptions C137_shift.

(** The tree of LiftProps rooted at 3 with the heavy paths 3 2 4 5, 6 and 0 1 moved to the places 6 to 9, 0 and 3 to 4 of an array of
    length 10; the products on paths are those of the values 3 2 4 5 = 60 70 80 90, 6 = 0, 0 1 = 30 40; and the shift by 2. *)
Definition ex_places : list nat := [3; 4; 7; 6; 8; 9; 0].
Definition ex_vals : list (list nat) := [[0]; [10]; [20]; [30]; [40]; [50]; [60]; [70]; [80]; [90]].
Example C137_nonvacuous : (x ← ex_hld; Ok (h_pos (hd_tree x))) = Ok [5; 6; 1; 0; 2; 3; 4] /\ layout ex_tree [5; 6; 1; 0; 2; 3; 4] ex_places 10 /\
  snd <$> (x ← ex_hld; t ← lt_from [] (@app nat) (1, 0) ex_vals; run ex_step (with_pos (with_data x t) ex_places) [HPathProd 5 3; HGet 0; HApplyPath 6 1 (1, 5); HPathProd 6 0; HSet 2 [1]; HGet 2]) =
    Ok [HVal [60; 70; 80; 90]; HVal [30]; HUnit; HVal [5; 35; 75; 85]; HUnit; HVal [1]] /\
  snd <$> (x ← ex_hld; t ← lt_from [] (@app nat) (1, 0) ex_vals; run ex_step (with_pos (with_data x t) (map (fun i => i + 2) [5; 6; 1; 0; 2; 3; 4])) [HSubtreeProd 4; HPathProd 5 2]) = Ok [HVal [40]; HVal [30; 40; 50]] /\
  snd <$> (x ← ex_hld; t ← lt_from [] (@app nat) (1, 0) ex_vals; run ex_step (with_pos (with_data x t) (map (fun i => i + 2) [5; 6; 1; 0; 2; 3; 4])) [HSubtreeProd 5]) = Panic.
Proof.
  split; [reflexivity|]. split; [|split; [|split]; vm_compute; reflexivity]. split; [reflexivity|]. split; [apply (bool_decide_unpack _); vm_compute; exact I|]. split.
  - intros v i Hi. do 7 (destruct v as [|v]; [injection Hi as <-; lia|]). discriminate.
  - intros u v i j k He Hu Hv Hi Hj.
    do 7 (destruct u as [|u]; [injection Hu as <-; injection Hi as <-; do 7 (destruct v as [|v]; [try discriminate Hv; injection Hj as <-; try reflexivity; exfalso; destruct He as (es & Hes & Hin); injection Hes as <-; revert Hin; apply (bool_decide_unpack _); vm_compute; exact I|]); try discriminate Hv|]); try discriminate Hu.
Qed.
