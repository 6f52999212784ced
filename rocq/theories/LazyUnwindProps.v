(** C81: LazySegtree after caught panics. *)
From Verif Require Import Prelude IntModel UtilModel ArraySpec PartialOps SegtreeModel SegtreeProof SegtreeChkModel LazySpec LazyModel LazyProof LazyTop
  LazyChkModel LazyChkProof LazyChkProps Unwind LazyUnwindModel TreeUnwindSpec LazyUnwindSpec LazyUnwindCode LazyUnwindGhost LazyUnwindProof LazyUnwindTop LazyUnwindOps.

(** C81: the model with the memory left behind is the checked model: nobody catching, they are the same. *)
Theorem C81_same_code : forall {S F : Type} (e : S) (opc : S -> S -> res S) (idm : F) (mapc : F -> S -> res S) (compc : F -> F -> res F) o t,
  strip (ltu_step e opc idm mapc compc o t) = ltc_step e opc idm mapc compc t o.
Proof. intros. apply step_strip. Qed.
Print Assumptions C81_same_code.

(** C81: whatever calls unwind because op panics, every answer of a lazy segment tree is explained by the array of candidates:
    a set or map that completed acts on all candidates of the positions it names, one that unwound adds its results to the old candidates. *)
Theorem C81_lazy : forall {S F : Type} (e : S) (op : S -> S -> S) (idm : F) (mapping : F -> S -> S) (comp : F -> F -> F),
  monoid_laws e op -> map_laws op idm mapping comp -> forall (opc : S -> S -> res S), or_panics op opc ->
  forall (a : list S) t (ops : list (lz_op S F)), (Z.of_nat (length a) < 2 ^ 32)%Z -> ltc_from e opc idm a = Ok t ->
  exists t' outs cells, urun (ltu_step e opc idm (fun f x => Ok (mapping f x)) (fun f g => Ok (comp f g))) t ops = Ok (t', outs) /\
    cells_run (lz_cells_step e op mapping) (map (fun x => [x]) a) ops outs cells.
Proof.
  intros S F e op idm mapping comp L ML opc O a t ops Ha Ht. destruct (from_inv e op idm mapping comp L ML a Ha) as (t0 & E0 & I0).
  destruct (le_lt_from e op idm opc O a) as [E|E]; [|congruence]. assert (t = t0) as -> by congruence.
  destruct (run_cells e op idm mapping comp L ML opc O ops t0 _ (CInv_start e op idm mapping t0 a I0)) as (t' & outs & cells & H1 & H2 & _). eauto.
Qed.
Print Assumptions C81_lazy.

(** C81: where one candidate is left, the answers of prod and get are the exact ones. *)
Theorem C81_settled : forall {S F : Type} (e : S) (op : S -> S -> S) (mapping : F -> S -> S) (cells : list (list S)) (a : list S) l r,
  length a = length cells -> (forall i x, l <= i < r -> a !! i = Some x -> cells !! i = Some [x]) ->
  (forall v, lz_cells_step e op mapping cells (LzProd l r) (Some (LzVal v)) cells -> v = mprod e op (slice a l r)) /\
  (forall p v, l <= p < r -> lz_cells_step e op mapping cells (LzGet p) (Some (LzVal v)) cells -> a !! p = Some v).
Proof.
  intros S F e op mapping cells a l r Hl Hs. split.
  - intros v (_ & Hlr & ys & Hc & ->). f_equal. unfold choice in Hc. apply Forall2_same_length_lookup in Hc as [H1 H2]. rewrite slice_length in H1 by lia.
    apply list_eq. intros i. destruct (decide (i < r - l)) as [Hi|Hi].
    + destruct (lookup_lt_is_Some_2 ys i) as [y Hy]; [lia|]. destruct (lookup_lt_is_Some_2 a (l + i)) as [x Hx]; [lia|].
      rewrite Hy, slice_lookup, Hx by lia. pose proof (Hs (l + i) x ltac:(lia) Hx) as Hcell.
      assert (y ∈ [x]) as Hin by (apply (H2 i); [rewrite slice_lookup by lia; exact Hcell|exact Hy]). apply elem_of_list_singleton in Hin. congruence.
    + rewrite (lookup_ge_None_2 ys) by lia. symmetry. apply lookup_ge_None_2. rewrite slice_length by lia. lia.
  - intros p v Hp (_ & c & Hc). pose proof (lookup_lt_Some _ _ _ Hc) as Hlt. destruct (lookup_lt_is_Some_2 a p) as [x Hx]; [lia|].
    pose proof (Hs p x Hp Hx). congruence.
Qed.
Print Assumptions C81_settled.

(** C81: over operations that never panic the only calls that unwind are those the asserts refuse, and they leave
    no trace: all answers are those of a plain array that refuses such calls. *)
Theorem C81_refused : forall {S F : Type} (e : S) (op : S -> S -> S) (idm : F) (mapping : F -> S -> S) (comp : F -> F -> F),
  monoid_laws e op -> map_laws op idm mapping comp -> forall (a : list S) (ops : list (lz_op S F)), (Z.of_nat (length a) < 2 ^ 32)%Z ->
  exists t t' outs, lt_from e op idm a = Ok t /\
    urun (ltu_step e (fun x y => Ok (op x y)) idm (fun f x => Ok (mapping f x)) (fun f g => Ok (comp f g))) t ops = Ok (t', outs) /\
    lz_refusing_run e op mapping a ops outs.
Proof.
  intros S F e op idm mapping comp L ML a ops Ha. destruct (from_inv e op idm mapping comp L ML a Ha) as (t & E & I). exists t. rewrite E. clear E Ha. revert t a I.
  set (opc := fun x y => Ok (op x y)). set (mapc := fun f x => Ok (mapping f x)). set (compc := fun f g => Ok (comp f g)).
  assert (forall t o, ltc_step e opc idm mapc compc t o = lt_step e op idm mapping comp t o) as Hsame by (intros t [p x|p|l r| |p f|l r f|l g|r g]; reflexivity).
  induction ops as [|o ops IH]; intros t a I.
  - exists t, []. split; [reflexivity|]. split; [reflexivity|constructor].
  - pose proof (step_allowed e op idm mapping comp L ML t a I o) as H. rewrite <- Hsame, <- (C81_same_code e opc idm mapc compc o t) in H. cbn [urun].
    destruct (strip (ltu_step e opc idm mapc compc o t)) as [[t1 out]| |] eqn:Es; [| |contradiction].
    + apply strip_Ok in Es. rewrite Es. cbn [mbind res_bind]. destruct H as (a1 & Ha1 & I1). destruct (IH t1 a1 I1) as (t2 & outs & _ & Er & Hr).
      rewrite Er. cbn [mbind res_bind]. exists t2, (Some out :: outs). split; [reflexivity|]. split; [reflexivity|]. eapply lrr_ok; eassumption.
    + assert (ltu_step e opc idm mapc compc o t = Ok (t, None)) as ->.
      { pose proof (li_n _ _ _ _ _ _ I) as Hn.
        destruct o as [p x|p|l r| |p f|l r f|l g|r g]; cbn [lz_allowed lz_spec_step] in H; cbn [ltu_step].
        - apply ubind_unwound. rewrite <- (with_same t) at 2. apply on_tree_ok. apply ubind_unwound, uread_panic, assert_false.
          rewrite Hn. destruct (p <? length a); [discriminate|reflexivity].
        - apply ubind_unwound. rewrite <- (with_same t) at 2. apply on_tree_ok. apply ubind_unwound, uread_panic, assert_false. rewrite Hn.
          destruct (Nat.ltb_spec p (length a)) as [Hp|]; [|reflexivity]. exfalso. unfold vget in H. apply lookup_lt_is_Some_2 in Hp as [y Hy]. rewrite Hy in H. discriminate.
        - apply ubind_unwound. rewrite <- (with_same t) at 2. apply on_tree_ok. apply ubind_unwound, uread_panic, assert_false.
          rewrite Hn. destruct ((l <=? r) && (r <=? length a)); [discriminate|reflexivity].
        - discriminate.
        - apply ubind_unwound. rewrite <- (with_same t) at 2. apply on_tree_ok. apply ubind_unwound, uread_panic, assert_false. rewrite Hn.
          destruct (Nat.ltb_spec p (length a)) as [Hp|]; [|reflexivity]. exfalso. unfold vget in H. apply lookup_lt_is_Some_2 in Hp as [y Hy]. rewrite ?Hy in H. discriminate.
        - apply ubind_unwound. rewrite <- (with_same t) at 2. apply on_tree_ok. apply ubind_unwound, uread_panic, assert_false.
          rewrite Hn. destruct ((l <=? r) && (r <=? length a)); [discriminate|reflexivity].
        - apply ubind_unwound. rewrite <- (with_same t) at 2. apply on_tree_ok. rewrite <- Hn in H. destruct (l <=? lt_n t) eqn:Hl; cbn [andb] in H.
          + rewrite (ubind_ok _ _ _ (lt_d t, lt_lz t) tt) by (apply uread_ok; reflexivity). apply ubind_unwound, uread_panic, assert_false.
            destruct (g e); [|reflexivity]. destruct H as (? & H & _). discriminate.
          + apply ubind_unwound, uread_panic. reflexivity.
        - apply ubind_unwound. rewrite <- (with_same t) at 2. apply on_tree_ok. rewrite <- Hn in H. destruct (r <=? lt_n t) eqn:Hl; cbn [andb] in H.
          + rewrite (ubind_ok _ _ _ (lt_d t, lt_lz t) tt) by (apply uread_ok; reflexivity). apply ubind_unwound, uread_panic, assert_false.
            destruct (g e); [|reflexivity]. destruct H as (? & H & _). discriminate.
          + apply ubind_unwound, uread_panic. reflexivity. }
      cbn [mbind res_bind]. destruct (IH t a I) as (t2 & outs & _ & Er & Hr). rewrite Er. cbn [mbind res_bind].
      exists t2, (None :: outs). split; [reflexivity|]. split; [reflexivity|]. eapply lrr_refused; eassumption.
Qed.
Print Assumptions C81_refused.

(** Counts of zeros and ones with checked additions; flipping a range swaps them and cannot panic. *)
Definition bits_op (x y : Z * Z) : Z * Z := (x.1 + y.1, x.2 + y.2)%Z.
Definition bits_opc (x y : Z * Z) : res (Z * Z) := a ← iadd u8 x.1 y.1; b ← iadd u8 x.2 y.2; Ok (a, b).
Definition bits_flip (f : bool) (x : Z * Z) : Z * Z := if f then (x.2, x.1) else x.
(** C81: the candidates are needed.  After one caught overflow the product over two positions and the values there disagree,
    also after a flip of the range; the next completed call at either position repairs it. *)
Theorem C81_disagree : exists t t' : lazytree (Z * Z) bool, ltc_from (0, 0)%Z bits_opc false [(100, 0); (100, 0)]%Z = Ok t /\
  urun (ltu_step (0, 0)%Z bits_opc false (fun f x => Ok (bits_flip f x)) (fun f g => Ok (xorb f g))) t
    [LzSet 0 (200, 0)%Z; LzGet 0; LzGet 1; LzProd 0 2; LzApplyRange 0 2 true; LzAllProd; LzGet 0; LzGet 1; LzApply 1 true; LzProd 0 2] =
  Ok (t', [None; Some (LzVal (200, 0)%Z); Some (LzVal (100, 0)%Z); Some (LzVal (200, 0)%Z); Some LzUnit; Some (LzVal (0, 200)%Z);
           Some (LzVal (0, 200)%Z); Some (LzVal (0, 100)%Z); Some LzUnit; Some (LzVal (100, 200)%Z)]).
Proof. eexists _, _. split; [vm_compute; reflexivity|]. vm_compute. reflexivity. Qed.
Print Assumptions C81_disagree.

(** C81: that mapping does not panic is needed.  With checked i8 sums and range additions get(0) pushes +10 to the first child and
    overflows at the second, so that the map is applied there and still pending above; after -10 on the whole range, which restores the
    array, get(0) gives -110 in place of -120; the array of candidates does not allow that, even if the unwound get is left out. *)
Theorem C81_mapping_panics : exists t t' : lazytree (Z * Z) Z, ltc_from (0, 0)%Z (su_opc i8) 0%Z [(-120, 1); (120, 1)]%Z = Ok t /\
  urun (ltu_step (0, 0)%Z (su_opc i8) 0%Z (su_mapc i8) (iadd i8)) t [LzApplyRange 0 2 10%Z; LzGet 0; LzApplyRange 0 2 (-10)%Z; LzGet 0] =
    Ok (t', [Some LzUnit; None; Some LzUnit; Some (LzVal (-110, 1)%Z)]) /\
  ~ exists cells, cells_run (lz_cells_step (0, 0)%Z su_op su_map) [[(-120, 1)]; [(120, 1)]]%Z [LzApplyRange 0 2 10%Z; LzApplyRange 0 2 (-10)%Z; LzGet 0]
      [Some LzUnit; Some LzUnit; Some (LzVal (-110, 1)%Z)] cells.
Proof.
  eexists _, _. split; [vm_compute; reflexivity|]. split; [vm_compute; reflexivity|].
  intros (cells & c1 & [_ E1] & c2 & [_ E2] & c3 & (_ & c & Ec) & _). vm_compute in E1. subst c1. vm_compute in E2. subst c2. discriminate.
Qed.
Print Assumptions C81_mapping_panics.

(** Non-vacuity: counts of bits under flips meet the hypotheses of C81_lazy and C81_refused; the history of C81_disagree is an instance. *)
Example C81_nonvacuous : monoid_laws (0, 0)%Z bits_op /\ map_laws bits_op false bits_flip xorb /\ or_panics bits_op bits_opc /\
  (exists t, ltc_from (0, 0)%Z bits_opc false [(100, 0); (100, 0)]%Z = Ok t) /\
  cells_run (lz_cells_step (0, 0)%Z bits_op bits_flip) [[(100, 0)]; [(100, 0)]]%Z [LzSet 0 (200, 0)%Z; LzProd 0 2; LzApplyRange 0 2 true]
    [None; Some (LzVal (200, 0)%Z); Some LzUnit] [[(0, 200); (0, 100)]; [(0, 100)]]%Z.
Proof.
  split; [split; intros; destruct_and?; repeat match goal with x : (Z * Z)%type |- _ => destruct x end; unfold bits_op; cbn; f_equal; lia|].
  split; [split; [reflexivity|intros [] []; intros []; reflexivity|intros [] [] []; reflexivity]|].
  split; [intros [x1 x2] [y1 y2]; unfold bits_opc, bits_op, iadd, chk; cbn [fst snd]; repeat case_match; cbn; auto|].
  split; [eexists; vm_compute; reflexivity|].
  exists [[(200, 0); (100, 0)]; [(100, 0)]]%Z. split; [reflexivity|].
  exists [[(200, 0); (100, 0)]; [(100, 0)]]%Z. split; [|exists [[(0, 200); (0, 100)]; [(0, 100)]]%Z; split; [cbn; split; [lia|reflexivity]|reflexivity]].
  cbn. split; [reflexivity|]. split; [lia|]. exists [(100, 0); (100, 0)]%Z. split; [|reflexivity]. repeat constructor.
Qed.
