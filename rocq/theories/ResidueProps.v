(** Property C87: segment trees over modints. *)
From Verif Require Import Prelude IntModel ArraySpec SegtreeSpec SegtreeModel SegtreeProps SegtreeChkModel SegtreeChkProps
  LazySpec LazyModel LazyProps LazyChkModel LazyChkProps PartialOps WordSpec WordProof ModIntModel ModIntProof ResidueModel ResidueSpec ResidueProof.

Lemma always_true {St Op Out} (step : St -> Op -> res (St * Out)) (P : St -> Prop) ops : (forall s, P s) -> forall s, always step P s ops.
Proof. intros H. induction ops as [|o ops IH]; intros s; cbn; [auto|]. split; [apply H|]. destruct (step s o) as [[s' out]| |]; auto. Qed.

Section Residues.
  Context (m : Z) (Hm : (0 < m)%Z) (Hm31 : (m <= 2 ^ 31)%Z) (c : modctx) (Hc : modint_ctx m c).
  Local Notation r := (residue_of m Hm).
  Local Notation r2 := (residue2_of m Hm).
  Lemma r_onto' : hom_onto r.
  Proof. intros P. apply r_onto. Qed.
  Lemma r2_onto' : hom_onto r2.
  Proof. intros P. apply r2_onto. Qed.

  (** A segment tree whose operation is an image of an exact one. *)
  Lemma segtree_image {A B} (h : A -> B) e op op' opc (v : list A) ops : hom_onto h -> (forall x y, h (op x y) = op' (h x) (h y)) -> monoid_laws e op ->
    (forall x y, opc x y = Ok (op' x y)) -> (Z.of_nat (length v) < 2 ^ 32)%Z ->
    fmap snd (t ← stc_from (h e) opc (map h v); run (stc_step (h e) opc) t (map (sg_op_map h) ops)) = fmap (map (sg_out_map h)) (fmap snd (run (sg_spec_step e op) v ops)).
  Proof.
    intros O H L Hop Hv. rewrite (C64_segtree_checked (h e) op' (fun _ => True) opc).
    - apply (run_hom_snd (sg_spec_step e op)). apply sg_hom; [reflexivity|exact H].
    - eapply hom_monoid; eauto.
    - intros x y _. apply Hop.
    - rewrite map_length. exact Hv.
    - apply always_true. intros s l k _. exact Logic.I.
  Qed.
  Lemma lazy_image {A B F G} (h : A -> B) (hf : F -> G) e op op' opc idm mp mp' mpc cp cp' cpc (v : list A) ops : hom_onto h -> hom_onto hf ->
    (forall x y, h (op x y) = op' (h x) (h y)) -> (forall f x, h (mp f x) = mp' (hf f) (h x)) -> (forall f g, hf (cp f g) = cp' (hf f) (hf g)) ->
    monoid_laws e op -> map_laws op idm mp cp -> monoid_laws idm cp ->
    (forall x y, opc x y = Ok (op' x y)) -> (forall f x, mpc f x = Ok (mp' f x)) -> (forall f g, cpc f g = Ok (cp' f g)) ->
    (Z.of_nat (length v) < 2 ^ 32)%Z -> Forall (fun o => is_search o = false) ops ->
    fmap snd (t ← ltc_from (h e) opc (hf idm) (map h v); run (ltc_step (h e) opc (hf idm) mpc cpc) t (map (lz_op_map h hf) ops))
    = fmap (map (lz_out_map h)) (fmap snd (run (lz_spec_step e op mp) v ops)).
  Proof.
    intros O Of H1 H2 H3 L ML LC E1 E2 E3 Hv Hs. rewrite (C66_lazy_checked_array (h e) op' (hf idm) mp' cp') with (goodS := fun _ => True) (goodF := fun _ => True); auto.
    - apply (run_hom_snd (lz_spec_step e op mp)). apply lz_hom; auto.
    - eapply hom_monoid; eauto.
    - eapply hom_maps; eauto.
    - eapply hom_monoid; eauto.
    - rewrite map_length. exact Hv.
    - apply List.Forall_map. eapply Forall_impl; [exact Hs|]. intros []; auto.
    - apply always_true. intros s l k _. exact Logic.I.
    - apply Forall_forall. intros o _. destruct o; exact Logic.I.
  Qed.
End Residues.

(** C87: for both modint types and every modulus up to 2^31, a modint is a residue, new makes the residue of its argument, + and *
    are total and are the images of + and * of integers; so they obey the laws the data structures ask for. *)
Theorem C87_laws : forall m (Hm : (0 < m)%Z) c, (m <= 2 ^ 31)%Z -> modint_ctx m c ->
  let r := residue_of m Hm in
  (forall T x, T ∈ prim_types -> in_ty T x -> as_residue m (mi_new (mc_m c) T x) = Ok (r x)) /\
  (forall x y, rc_add m c (r x) (r y) = Ok (r (x + y)%Z) /\ rc_mul m c (r x) (r y) = Ok (r (x * y)%Z)) /\
  (forall x y : residue m, fmap rval (rc_add m c x y) = mi_add (mc_m c) (rval x) (rval y) /\ fmap rval (rc_mul m c x y) = mc_mul c (rval x) (rval y)) /\
  (forall x : residue m, r (rval x) = x) /\ (forall x, (m | rval (r x) - x)%Z) /\
  exists add mul, (forall x y, rc_add m c x y = Ok (add x y)) /\ (forall x y, rc_mul m c x y = Ok (mul x y)) /\
    monoid_laws (r 0%Z) add /\ monoid_laws (r 1%Z) mul /\ (forall x y, add x y = add y x) /\ (forall x y, mul x y = mul y x) /\
    (forall x y z, mul x (add y z) = add (mul x y) (mul x z)).
Proof.
  intros m Hm c H31 Hc r. destruct (modint_ok m Hm c H31 Hc) as [Em [Hmul _]].
  split; [|split; [|split; [|split; [|split]]]].
  - intros T x HT Hx. rewrite Em, new_ok by (auto; lia). apply as_residue_mod.
  - intros x y. unfold r. rewrite (rc_add_ok m Hm c H31 Hc), (rc_mul_ok m Hm c H31 Hc), r_add, r_mul. auto.
  - intros x y. rewrite (rc_add_ok m Hm c H31 Hc), (rc_mul_ok m Hm c H31 Hc), Em, add_ok, Hmul by (try lia; apply rval_in). auto.
  - apply r_of_val.
  - intros x. exists (- (x / m))%Z. unfold r. rewrite r_val, Z.mod_eq by lia. lia.
  - exists (radd m Hm), (rmul m Hm). split; [apply rc_add_ok; auto|]. split; [apply rc_mul_ok; auto|].
    split; [eapply hom_monoid; [apply r_onto'|apply r_add|apply zadd_monoid]|]. split; [eapply hom_monoid; [apply r_onto'|apply r_mul|apply zmul_monoid]|].
    split; [intros x y; unfold radd; f_equal; lia|]. split; [intros x y; unfold rmul; f_equal; lia|].
    intros x y z. revert x; apply (r_onto m Hm); intros x. revert y; apply (r_onto m Hm); intros y. revert z; apply (r_onto m Hm); intros z.
    rewrite <- r_add, <- !r_mul, <- r_add. f_equal. lia.
Qed.
Print Assumptions C87_laws.

(** Segment trees of sums, of products, and of compositions of affine maps (not commutative): the answers are the exact integer
    answers of the plain array, reduced modulo m; the only panics are those of the plain array. *)
Theorem C87_segtree : forall m (Hm : (0 < m)%Z) c, (m <= 2 ^ 31)%Z -> modint_ctx m c ->
  let r := residue_of m Hm in let r2 := residue2_of m Hm in
  (forall (v : list Z) (ops : list (sg_op Z)), (Z.of_nat (length v) < 2 ^ 32)%Z ->
     fmap snd (t ← stc_from (r 0%Z) (rc_add m c) (map r v); run (stc_step (r 0%Z) (rc_add m c)) t (map (sg_op_map r) ops))
       = fmap (map (sg_out_map r)) (fmap snd (run (sg_spec_step 0%Z Z.add) v ops)) /\
     fmap snd (t ← stc_from (r 1%Z) (rc_mul m c) (map r v); run (stc_step (r 1%Z) (rc_mul m c)) t (map (sg_op_map r) ops))
       = fmap (map (sg_out_map r)) (fmap snd (run (sg_spec_step 1%Z Z.mul) v ops))) /\
  (forall (v : list (Z * Z)) (ops : list (sg_op (Z * Z))), (Z.of_nat (length v) < 2 ^ 32)%Z ->
     fmap snd (t ← stc_from (r2 (1, 0)%Z) (rc_then m c) (map r2 v); run (stc_step (r2 (1, 0)%Z) (rc_then m c)) t (map (sg_op_map r2) ops))
       = fmap (map (sg_out_map r2)) (fmap snd (run (sg_spec_step (1, 0)%Z (fun f g => z_comp g f)) v ops))).
Proof.
  intros m Hm c H31 Hc r r2. split; [intros v ops Hv; split|intros v ops Hv].
  - eapply segtree_image; [apply r_onto'|apply r_add|apply zadd_monoid|apply rc_add_ok; auto|exact Hv].
  - eapply segtree_image; [apply r_onto'|apply r_mul|apply zmul_monoid|apply rc_mul_ok; auto|exact Hv].
  - apply (segtree_image r2 (1, 0)%Z (fun f g => z_comp g f) (fun f g => r_comp m Hm g f)); [apply r2_onto'|intros x y; apply r2_comp|apply zthen_monoid|apply rc_then_ok; auto|exact Hv].
Qed.
Print Assumptions C87_segtree.

(** The lazy segment tree of sums with affine updates of ranges: again the exact answers, reduced. *)
Theorem C87_lazy : forall m (Hm : (0 < m)%Z) c, (m <= 2 ^ 31)%Z -> modint_ctx m c ->
  let r2 := residue2_of m Hm in
  forall (v : list (Z * Z)) (ops : list (lz_op (Z * Z) (Z * Z))), (Z.of_nat (length v) < 2 ^ 32)%Z -> Forall (fun o => is_search o = false) ops ->
  fmap snd (t ← ltc_from (r2 (0, 0)%Z) (rc_sum_op m c) (r2 (1, 0)%Z) (map r2 v);
            run (ltc_step (r2 (0, 0)%Z) (rc_sum_op m c) (r2 (1, 0)%Z) (rc_affine m c) (rc_comp m c)) t (map (lz_op_map r2 r2) ops))
    = fmap (map (lz_out_map r2)) (fmap snd (run (lz_spec_step (0, 0)%Z z_sum z_affine) v ops)).
Proof.
  intros m Hm c H31 Hc r2 v ops Hv Hs.
  eapply lazy_image; [apply r2_onto'|apply r2_onto'|apply r2_sum|apply r2_affine|apply r2_comp|apply zsum_monoid|apply zaffine_maps|apply zcomp_monoid
    |apply rc_sum_ok; auto|apply rc_affine_ok; auto|apply rc_comp_ok; auto|exact Hv|exact Hs].
Qed.
Print Assumptions C87_lazy.

(** Modulo 7 with the runtime modulus: [3; 5; 6], the map t -> 4t + 2 on the first two, then t -> 3t on the last two. *)
Example C87_nonvacuous : exists br, set_modulus 7 = Ok br /\ modint_ctx 7 (dynamic_ctx br) /\
  fmap snd (run (lz_spec_step (0, 0)%Z z_sum z_affine) [(3, 1); (5, 1); (6, 1)]%Z [LzApplyRange 0 2 (4, 2)%Z; LzApplyRange 1 3 (3, 0)%Z; LzProd 0 3; LzGet 1])
    = Ok [LzUnit; LzUnit; LzVal (98, 3)%Z; LzVal (66, 1)%Z] /\
  forall (Hm : (0 < 7)%Z), let r2 := residue2_of 7 Hm in let c := dynamic_ctx br in
  fmap (map (fun o => match o with LzVal x => (rval x.1, rval x.2) | _ => (0, 0)%Z end))
    (fmap snd (t ← ltc_from (r2 (0, 0)%Z) (rc_sum_op 7 c) (r2 (1, 0)%Z) (map r2 [(3, 1); (5, 1); (6, 1)]%Z);
      run (ltc_step (r2 (0, 0)%Z) (rc_sum_op 7 c) (r2 (1, 0)%Z) (rc_affine 7 c) (rc_comp 7 c)) t
        (map (lz_op_map r2 r2) [LzApplyRange 0 2 (4, 2)%Z; LzApplyRange 1 3 (3, 0)%Z; LzProd 0 3; LzGet 1])))
    = Ok [(0, 0); (0, 0); (0, 3); (3, 1)]%Z.
Proof.
  destruct (barrett_new_ok 7) as (br & E & _); [lia|]. exists br. assert (set_modulus 7 = Ok br) as E' by exact E. split; [exact E'|].
  assert (modint_ctx 7 (dynamic_ctx br)) as M by (right; eauto). split; [exact M|]. split; [vm_compute; reflexivity|]. intros Hm r2 c.
  unfold r2, c. rewrite (C87_lazy 7 Hm (dynamic_ctx br) ltac:(lia) M); [vm_compute; reflexivity|cbn; lia|repeat constructor].
Qed.
