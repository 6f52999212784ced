(** The provided monoids: main theorems (C50). *)
From Verif Require Import Prelude IntModel ArraySpec SegtreeSpec SegtreeModel SegtreeProof SegtreeProps MonoidSpec MonoidModel.

Section order.
  Context {S : Type} (cmp : S -> S -> comparison) (T : total_order cmp).
  Lemma cmp_refl a : cmp a a = Eq.
  Proof. apply (to_eq _ T). reflexivity. Qed.
  Lemma cmp_lt_trans a b c : cmp a b <> Gt -> cmp b c <> Gt -> cmp a c <> Gt.
  Proof.
    intros H1 H2. destruct (cmp a b) eqn:E1; [apply (to_eq _ T) in E1 as ->; exact H2| |contradiction].
    destruct (cmp b c) eqn:E2; [apply (to_eq _ T) in E2 as <-; congruence| |contradiction]. rewrite (to_trans _ T a b c E1 E2). discriminate.
  Qed.
  Lemma cmp_gt_trans a b c : cmp a b = Gt -> cmp b c = Gt -> cmp a c = Gt.
  Proof.
    intros H1 H2. rewrite (to_sym _ T c a). rewrite (to_trans _ T c b a); [reflexivity| |].
    - rewrite (to_sym _ T b c), H2. reflexivity.
    - rewrite (to_sym _ T a b), H1. reflexivity.
  Qed.
  Lemma cmp_gt_lt a b : cmp a b = Gt <-> cmp b a = Lt.
  Proof. rewrite (to_sym _ T a b). destruct (cmp a b); cbn; split; congruence. Qed.
  Ltac by_order a b c := first [reflexivity
    | let H := fresh in assert (cmp a c <> Gt) as H by (apply (cmp_lt_trans a b c); congruence); destruct (cmp a c); congruence
    | rewrite (cmp_gt_trans a b c) by assumption; reflexivity].
  Lemma max_assoc a b c : ord_max cmp a (ord_max cmp b c) = ord_max cmp (ord_max cmp a b) c.
  Proof. unfold ord_max. destruct (cmp b c) eqn:E2, (cmp a b) eqn:E1; rewrite ?E1, ?E2; by_order a b c. Qed.
  Lemma min_assoc a b c : ord_min cmp a (ord_min cmp b c) = ord_min cmp (ord_min cmp a b) c.
  Proof. unfold ord_min. destruct (cmp b c) eqn:E2, (cmp a b) eqn:E1; rewrite ?E1, ?E2; by_order a b c. Qed.
  Lemma max_comm a b : ord_max cmp a b = ord_max cmp b a.
  Proof. unfold ord_max. rewrite (to_sym _ T a b). destruct (cmp a b) eqn:E; cbn; try reflexivity. apply (to_eq _ T) in E. auto. Qed.
  Lemma min_comm a b : ord_min cmp a b = ord_min cmp b a.
  Proof. unfold ord_min. rewrite (to_sym _ T a b). destruct (cmp a b) eqn:E; cbn; try reflexivity. apply (to_eq _ T) in E. auto. Qed.
  Lemma max_idem a : ord_max cmp a a = a.
  Proof. unfold ord_max. destruct (cmp a a); reflexivity. Qed.
  Lemma min_idem a : ord_min cmp a a = a.
  Proof. unfold ord_min. destruct (cmp a a); reflexivity. Qed.
  Lemma max_lower lo a : cmp lo a <> Gt -> ord_max cmp lo a = a.
  Proof. unfold ord_max. destruct (cmp lo a); congruence. Qed.
  Lemma min_upper hi a : cmp a hi <> Gt -> ord_min cmp a hi = a.
  Proof. unfold ord_min. destruct (cmp a hi); congruence. Qed.
  Lemma max_ge a b : cmp a (ord_max cmp a b) <> Gt /\ cmp b (ord_max cmp a b) <> Gt.
  Proof.
    unfold ord_max. destruct (cmp a b) eqn:E; rewrite ?E, ?cmp_refl; [split; discriminate..|]. split; [discriminate|]. apply cmp_gt_lt in E. congruence.
  Qed.
  Lemma min_le a b : cmp (ord_min cmp a b) a <> Gt /\ cmp (ord_min cmp a b) b <> Gt.
  Proof.
    unfold ord_min. destruct (cmp a b) eqn:E; rewrite ?E, ?cmp_refl; [split; discriminate..|]. split; [|discriminate]. apply cmp_gt_lt in E. congruence.
  Qed.
End order.

(** C50, Max and Min over any totally ordered type with the bound: commutative idempotent monoids, and the operation
    gives the larger (smaller) argument. *)
Theorem C50_max_min : forall S (cmp : S -> S -> comparison), total_order cmp ->
  (forall lo, (forall x, cmp lo x <> Gt) ->
     monoid_on (fun _ => True) (max_identity lo) (max_op cmp)) /\
  (forall hi, (forall x, cmp x hi <> Gt) ->
     monoid_on (fun _ => True) (min_identity hi) (min_op cmp)) /\
  (forall a b, max_op cmp a b = max_op cmp b a /\ min_op cmp a b = min_op cmp b a) /\
  (forall a, max_op cmp a a = a /\ min_op cmp a a = a) /\
  (forall a b, (max_op cmp a b = a \/ max_op cmp a b = b) /\ cmp a (max_op cmp a b) <> Gt /\ cmp b (max_op cmp a b) <> Gt) /\
  (forall a b, (min_op cmp a b = a \/ min_op cmp a b = b) /\ cmp (min_op cmp a b) a <> Gt /\ cmp (min_op cmp a b) b <> Gt).
Proof.
  intros S cmp T. unfold max_op, min_op, max_identity, min_identity. split; [|split; [|split; [|split; [|split]]]].
  - intros lo Hlo. split; auto; intros.
    + apply max_assoc; exact T.
    + apply max_lower; auto.
    + rewrite (max_comm cmp T). apply max_lower; auto.
  - intros hi Hhi. split; auto; intros.
    + apply min_assoc; exact T.
    + rewrite (min_comm cmp T). apply min_upper; auto.
    + apply min_upper; auto.
  - intros a b. split; [apply max_comm|apply min_comm]; exact T.
  - intros a. split; [apply max_idem|apply min_idem].
  - intros a b. split; [unfold ord_max; destruct (cmp a b); auto|]. apply max_ge. exact T.
  - intros a b. split; [unfold ord_min; destruct (cmp a b); auto|]. apply min_le. exact T.
Qed.
Print Assumptions C50_max_min.

Lemma Z_order : total_order Z.compare.
Proof.
  split; intros.
  - apply Z.compare_eq_iff.
  - apply Z.compare_antisym.
  - rewrite Z.compare_lt_iff in *. lia.
Qed.
Lemma bits_pos T : T ∈ prim_types -> (0 < it_bits T)%Z.
Proof. intros H. unfold prim_types in H. repeat (apply elem_of_cons in H as [->|H]; [vm_compute; reflexivity|]). apply elem_of_nil in H. contradiction. Qed.
Lemma zero_in T : (0 < it_bits T)%Z -> in_ty T 0.
Proof.
  intros H. unfold in_ty, it_min, it_max. destruct (it_signed T).
  - pose proof (Z.pow_pos_nonneg 2 (it_bits T - 1)). lia.
  - pose proof (Z.pow_pos_nonneg 2 (it_bits T)). lia.
Qed.

(** C50 on the primitive integer types.  A value of type T is an integer in its range. *)
Theorem C50_primitive : forall T, T ∈ prim_types ->
  monoid_on (in_ty T) (max_identity (prim_min_value T)) (max_op Z.compare) /\
  monoid_on (in_ty T) (min_identity (prim_max_value T)) (min_op Z.compare) /\
  (forall a b, max_op Z.compare a b = Z.max a b /\ min_op Z.compare a b = Z.min a b) /\
  partial_monoid_on (in_ty T) add_identity (add_op T) /\
  partial_monoid_on (in_ty T) mul_identity (mul_op T) /\
  (forall a b, add_op T a b = add_op T b a /\ mul_op T a b = mul_op T b a) /\
  (forall a b, (in_ty T (a + b) -> add_op T a b = Ok (a + b)%Z) /\ (~ in_ty T (a + b) -> add_op T a b = Panic)) /\
  (forall a b, (in_ty T (a * b) -> mul_op T a b = Ok (a * b)%Z) /\ (~ in_ty T (a * b) -> mul_op T a b = Panic)).
Proof.
  intros T HT. assert (in_ty T 0 /\ in_ty T 1) as [H0 H1].
  { unfold prim_types in HT. repeat (apply elem_of_cons in HT as [->|HT]; [split; split; vm_compute; discriminate|]). apply elem_of_nil in HT. contradiction. }
  assert (forall a b, max_op Z.compare a b = Z.max a b) as Emax.
  { intros a b. unfold max_op, ord_max. destruct (Z.compare_spec a b); lia. }
  assert (forall a b, min_op Z.compare a b = Z.min a b) as Emin.
  { intros a b. unfold min_op, ord_min. destruct (Z.compare_spec a b); lia. }
  assert (forall x, chk T x <> Diverge) as Hd by (intros x; destruct (chk_cases T x) as [[_ E]|[_ E]]; rewrite E; discriminate).
  split; [|split; [|split; [|split; [|split; [|split; [|split]]]]]].
  - unfold in_ty, max_identity, prim_min_value in *. split; intros; cbv beta in *; rewrite ?Emax; lia.
  - unfold in_ty, min_identity, prim_max_value in *. revert Emin. generalize (min_op Z.compare) as f. intros f Emin. split; intros; cbv beta in *; repeat rewrite Emin; lia.
  - auto.
  - unfold add_identity, prim_zero, add_op, iadd. split; auto; intros.
    + repeat match goal with H : chk _ _ = Ok _ |- _ => apply chk_inv in H as [-> ?] end. assumption.
    + repeat match goal with H : chk _ _ = Ok _ |- _ => apply chk_inv in H as [-> ?] end. lia.
    + rewrite chk_ok; cbn; auto.
    + rewrite Z.add_0_r, chk_ok; auto.
  - unfold mul_identity, prim_one, mul_op, imul. split; auto; intros.
    + repeat match goal with H : chk _ _ = Ok _ |- _ => apply chk_inv in H as [-> ?] end. assumption.
    + repeat match goal with H : chk _ _ = Ok _ |- _ => apply chk_inv in H as [-> ?] end. lia.
    + rewrite Z.mul_1_l, chk_ok; auto.
    + rewrite Z.mul_1_r, chk_ok; auto.
  - intros a b. unfold add_op, mul_op, iadd, imul. rewrite (Z.add_comm a b), (Z.mul_comm a b). auto.
  - intros a b. split; [apply chk_ok|apply chk_panic].
  - intros a b. split; [apply chk_ok|apply chk_panic].
Qed.
Print Assumptions C50_primitive.

(** On the unsigned types both bracketings of a sum panic together; on the signed types they need not. *)
Theorem C50_additive_unsigned : forall T a b c, T ∈ prim_types -> it_signed T = false -> in_ty T a -> in_ty T b -> in_ty T c ->
  (x ← add_op T a b; add_op T x c) = (y ← add_op T b c; add_op T a y).
Proof.
  intros T a b c HT HU Ha Hb Hc. unfold add_op, iadd. unfold in_ty, it_min in *. rewrite HU in *.
  destruct (chk_cases T (a + b)) as [[H1 ->]|[H1 ->]], (chk_cases T (b + c)) as [[H2 ->]|[H2 ->]]; cbn [mbind res_bind]; unfold in_ty, it_min in *; rewrite HU in *.
  - f_equal. lia.
  - apply chk_panic. unfold in_ty, it_min. rewrite HU. lia.
  - symmetry. apply chk_panic. unfold in_ty, it_min. rewrite HU. lia.
  - reflexivity.
Qed.
Print Assumptions C50_additive_unsigned.
Theorem C50_bracketing_matters :
  (exists a b c, in_ty i32 a /\ in_ty i32 b /\ in_ty i32 c /\
     (x ← add_op i32 a b; add_op i32 x c) = Panic /\ (y ← add_op i32 b c; add_op i32 a y) = Ok 1%Z) /\
  (exists a b c, in_ty u32 a /\ in_ty u32 b /\ in_ty u32 c /\
     (x ← mul_op u32 a b; mul_op u32 x c) = Panic /\ (y ← mul_op u32 b c; mul_op u32 a y) = Ok 0%Z).
Proof.
  split.
  - exists (2147483647)%Z, 1%Z, (-2147483647)%Z. repeat (split; [unfold in_ty; vm_compute; split; discriminate|]). vm_compute. auto.
  - exists (4294967295)%Z, 2%Z, 0%Z. repeat (split; [unfold in_ty; vm_compute; split; discriminate|]). vm_compute. auto.
Qed.
Print Assumptions C50_bracketing_matters.

(** With the segment tree (C01): a tree over Max answers prod(l, r) with the largest of a[l..r). *)
Lemma mprod_max {S} (cmp : S -> S -> comparison) (T : total_order cmp) lo (Hlo : forall x, cmp lo x <> Gt) (l : list S) :
  (forall x, x ∈ l -> cmp x (mprod lo (max_op cmp) l) <> Gt) /\ (l <> [] -> mprod lo (max_op cmp) l ∈ l).
Proof.
  induction l as [|a l [IH1 IH2]]; [split; [intros x H; inversion H|congruence]|]. cbn [mprod foldr]. change (foldr (max_op cmp) lo l) with (mprod lo (max_op cmp) l). split.
  - intros x Hx. destruct (max_ge cmp T a (mprod lo (max_op cmp) l)) as [G1 G2]. apply elem_of_cons in Hx as [->|Hx]; [exact G1|]. eapply cmp_lt_trans; [exact T|apply IH1; exact Hx|exact G2].
  - intros _. destruct l as [|b l].
    + cbn [mprod foldr]. unfold max_op. rewrite (max_comm cmp T), (max_lower cmp lo a (Hlo a)). left.
    + unfold max_op at 1, ord_max. destruct (cmp a _); [right; apply IH2; discriminate..|left].
Qed.
Theorem C50_segtree_max : forall S (cmp : S -> S -> comparison) lo, total_order cmp -> (forall x, cmp lo x <> Gt) ->
  forall (v : list S) l r, (Z.of_nat (length v) < 2 ^ 32)%Z -> l < r -> r <= length v ->
  exists t m, st_from (max_identity lo) (max_op cmp) v = Ok t /\ st_prod (max_identity lo) (max_op cmp) t l r = Ok m /\
    m ∈ slice v l r /\ forall x, x ∈ slice v l r -> cmp x m <> Gt.
Proof.
  intros S cmp lo T Hlo v l r Hv Hlr Hr. destruct (C50_max_min S cmp T) as [HM _]. destruct (HM lo Hlo) as [_ _ M1 M2 M3].
  assert (monoid_laws (max_identity lo) (max_op cmp)) as L by (split; intros; auto).
  pose proof (segtree_refines_array (max_identity lo) (max_op cmp) L v [SgProd l r] Hv) as H. destruct (st_from _ _ v) as [t| |] eqn:Et; cbn [mbind res_bind] in H.
  2,3: exfalso; cbn in H; destruct (Nat.leb_spec l r), (Nat.leb_spec r (length v)); try lia; discriminate.
  cbn in H. destruct (Nat.leb_spec l r), (Nat.leb_spec r (length v)); try lia. cbn in H.
  destruct (st_prod (max_identity lo) (max_op cmp) t l r) as [m| |] eqn:Em; try discriminate. cbn in H. injection H as Hm. exists t, m. split; [reflexivity|]. split; [exact Em|].
  destruct (mprod_max cmp T lo Hlo (slice v l r)) as [P1 P2]. unfold max_identity in Hm. rewrite Hm. split; [|exact P1]. apply P2. intros E. apply (f_equal length) in E.
  unfold slice in E. rewrite take_length, drop_length in E. cbn in E. lia.
Qed.
Print Assumptions C50_segtree_max.

Example C50_nonvacuous :
  (max_op Z.compare 3 (-5) = 3 /\ min_op Z.compare 3 (-5) = -5 /\ add_op u8 200 55 = Ok 255 /\ add_op u8 200 56 = Panic /\
   mul_op i8 (-16) 8 = Ok (-128) /\ mul_op i8 16 8 = Panic /\ total_order Z.compare)%Z.
Proof. repeat (split; [reflexivity|]). apply Z_order. Qed.

(** The primitive types that theorems quantify over, by their ranges. *)
Example prim_types_ranges : map (fun T => (it_min T, it_max T)) prim_types = [
  (-128, 127); (-32768, 32767); (-2147483648, 2147483647); (-9223372036854775808, 9223372036854775807);
  (-170141183460469231731687303715884105728, 170141183460469231731687303715884105727);
  (-9223372036854775808, 9223372036854775807);
  (0, 255); (0, 65535); (0, 4294967295); (0, 18446744073709551615); (0, 340282366920938463463374607431768211455);
  (0, 18446744073709551615)]%Z.
Proof. reflexivity. Qed.
