(** C79: Segtree and FenwickTree after caught panics. *)
From Verif Require Import Prelude IntModel UtilModel ArraySpec PartialOps SegtreeSpec SegtreeModel SegtreeProof SegtreeProps SegtreeChkModel SegtreeChkProof SegtreeChkProps
  FenwickSpec FenwickModel FenwickProof FenwickProps FenwickChkModel FenwickChkProof FenwickChkProps MonoidModel
  Unwind TreeUnwindSpec TreeUnwindModel TreeUnwindProof FenwickUnwindProof.

(** C79: the models with the memory left behind are the checked models: nobody catching, they are the same. *)
Theorem C79_same_code :
  (forall (S : Type) (e : S) (opc : S -> S -> res S) t o, strip (stu_step e opc o t) = stc_step e opc t o) /\
  (forall (T U : Type) (zero : T) (addc subc : T -> T -> res T) (adduc : T -> U -> res T) t o,
     strip (fwu_step zero addc subc adduc o t) = fwc_step zero addc subc adduc t o).
Proof.
  split.
  - intros S e opc t o. destruct o as [p x|p|l r|]; cbn [stu_step stc_step].
    + rewrite strip_bind, <- set_strip. destruct (strip (stu_set opc p x t)) as [[s a]| |]; reflexivity.
    + rewrite strip_read. destruct (st_get t p); reflexivity.
    + rewrite strip_read. destruct (stc_prod e opc t l r); reflexivity.
    + rewrite strip_read. destruct (st_all_prod t); reflexivity.
  - intros T U zero addc subc adduc t o. destruct o as [i u|i|l r]; cbn [fwu_step fwc_step].
    + rewrite strip_bind, <- add_strip. destruct (strip (fwu_add adduc i u t)) as [[s a]| |]; reflexivity.
    + rewrite strip_read. destruct (fwc_pref zero addc t i); reflexivity.
    + rewrite strip_read. destruct (fwc_sum zero addc subc t l r); reflexivity.
Qed.
Print Assumptions C79_same_code.

(** C79: whatever calls unwind, every answer of a segment tree is explained by some choice of one candidate per position:
    the values of the sets since (and including) the last completed one. *)
Theorem C79_segtree : forall {S : Type} (e : S) (op : S -> S -> S) (opc : S -> S -> res S),
  monoid_laws e op -> or_panics op opc -> forall (a : list S) t (ops : list (sg_op S)),
  (Z.of_nat (length a) < 2 ^ 32)%Z -> stc_from e opc a = Ok t ->
  exists t' outs cells, urun (stu_step e opc) t ops = Ok (t', outs) /\ cells_run (sg_cells_step e op) (map (fun x => [x]) a) ops outs cells.
Proof.
  intros S e op opc L O a t ops Ha Ht. destruct (st_from_inv e op a Ha) as (t0 & E0 & I0). destruct (le_from e op opc O a) as [E|E]; [|congruence].
  assert (t = t0) as -> by congruence. destruct (run_cells e op L opc O ops t0 _ (CI_start e op L t0 a I0)) as (t' & outs & cells & H1 & H2 & _). eauto.
Qed.
Print Assumptions C79_segtree.

(** C79: where the last set of every position completed, the answer is the exact one. *)
Theorem C79_settled : forall {S : Type} (e : S) (op : S -> S -> S) (cells : list (list S)) (a : list S) l r v,
  length a = length cells -> (forall i x, l <= i < r -> a !! i = Some x -> cells !! i = Some [x]) ->
  sg_cells_step e op cells (SgProd l r) (Some (SgVal v)) cells -> v = mprod e op (slice a l r).
Proof.
  intros S e op cells a l r v Hl Hs (_ & Hlr & ys & Hc & ->). f_equal. unfold choice in Hc. apply Forall2_same_length_lookup in Hc as [H1 H2]. rewrite slice_length in H1 by lia.
  apply list_eq. intros i. destruct (decide (i < r - l)) as [Hi|Hi].
  - destruct (lookup_lt_is_Some_2 ys i) as [y Hy]; [lia|]. destruct (lookup_lt_is_Some_2 a (l + i)) as [x Hx]; [lia|].
    rewrite Hy, slice_lookup, Hx by lia. pose proof (Hs (l + i) x ltac:(lia) Hx) as Hcell.
    assert (y ∈ [x]) as Hin by (apply (H2 i); [rewrite slice_lookup by lia; exact Hcell|exact Hy]). apply elem_of_list_singleton in Hin. congruence.
  - rewrite (lookup_ge_None_2 ys) by lia. symmetry. apply lookup_ge_None_2. rewrite slice_length by lia. lia.
Qed.
Print Assumptions C79_settled.

(** C79: the same for Fenwick trees; an add that unwound counts at some nodes and not at others, so that every answer is
    explained by counting it or not. *)
Theorem C79_fenwick : forall {T U : Type} (zero : T) (add sub : T -> T -> T) (addu : T -> U -> T) (addc subc : T -> T -> res T) (adduc : T -> U -> res T),
  fw_laws zero add addu -> or_panics add addc -> or_panics sub subc -> or_panics addu adduc -> forall (a : list T) t (ops : list (fw_op T U)),
  fwc_from zero addc a = Ok t ->
  exists t' outs cells, urun (fwu_step zero addc subc adduc) t ops = Ok (t', outs) /\ cells_run (fw_cells_step zero add sub addu) (map (fun x => [x]) a) ops outs cells.
Proof.
  intros T U zero add sub addu addc subc adduc L OA OS OU a t ops Ht. destruct (fw_from_inv zero add (fl_monoid _ _ _ L) a) as (t0 & E0 & I0).
  destruct (fwc_le_from zero add addc OA a) as [E|E]; [|congruence]. assert (t = t0) as -> by congruence.
  destruct (fw_run_cells zero add sub addu L addc subc adduc OA OS OU ops t0 _ (FCI_start zero add t0 a I0)) as (t' & outs & cells & H1 & H2 & _). eauto.
Qed.
Print Assumptions C79_fenwick.

(** C79: over operations that never panic the only calls that unwind are those with positions out of range, and they leave
    no trace: all answers are those of a plain array that refuses such calls. *)
Theorem C79_refused : 
  (forall {S : Type} (e : S) (op : S -> S -> S), monoid_laws e op -> forall (a : list S) (ops : list (sg_op S)), (Z.of_nat (length a) < 2 ^ 32)%Z ->
     fmap snd (t ← st_from e op a; urun (stu_step e (fun x y => Ok (op x y))) t ops) = Ok (run_refusing (sg_spec_step e op) a ops)) /\
  (forall {T U : Type} (zero : T) (add sub : T -> T -> T) (addu : T -> U -> T), fw_laws zero add addu -> forall (a : list T) (ops : list (fw_op T U)),
     fmap snd (t ← fw_from zero add a; urun (fwu_step zero (fun x y => Ok (add x y)) (fun x y => Ok (sub x y)) (fun x u => Ok (addu x u))) t ops) =
       Ok (run_refusing (fw_spec_step zero add sub addu) a ops)).
Proof.
  split.
  - intros S e op L a ops Ha. destruct (st_from_inv e op a Ha) as (t & -> & I). cbn [mbind res_bind]. clear Ha. revert t a I.
    set (opc := fun x y => Ok (op x y)). assert (agrees (fun _ => True) op opc) as A by (intros x y _; reflexivity).
    induction ops as [|o ops IH]; intros t a I; cbn [urun run_refusing]; [reflexivity|].
    assert (ranges_good e op (fun _ => True) a) as G by (intros l r _; exact Logic.I).
    pose proof (step_refines e op L t a o I) as Hr. destruct (sg_spec_step e op a o) as [[a' out]| |] eqn:Es; [| |contradiction].
    + destruct Hr as (t' & Et & I'). assert (stu_step e opc o t = Ok (t', Some out)) as ->.
      { apply strip_Ok. rewrite (proj1 C79_same_code). rewrite <- Et. apply (step_same e op L (fun _ => True) opc A t a o I G). intros a'' out' _ l r _. exact Logic.I. }
      cbn [mbind res_bind]. specialize (IH t' a' I'). destruct (urun _ t' ops) as [[t'' outs]| |]; [|discriminate|discriminate]. cbn in IH |- *. congruence.
    + assert (stu_step e opc o t = Ok (t, None)) as ->.
      { assert (strip (stu_step e opc o t) = Panic) as Hp.
        { rewrite (proj1 C79_same_code). rewrite <- Hr. apply (step_same e op L (fun _ => True) opc A t a o I G). intros a'' out' _ l r _. exact Logic.I. }
        destruct o as [p x|p|l r|]; cbn [stu_step] in Hp |- *.
        - cbn [sg_spec_step] in Es. destruct (Nat.ltb_spec p (length a)) as [|Hge]; [discriminate|]. apply ubind_unwound. unfold stu_set. apply ubind_unwound, uread_panic.
          rewrite (inv_n e op t a I). destruct (Nat.ltb_spec p (length a)); [lia|]. reflexivity.
        - rewrite strip_read in Hp. unfold uread. destruct (st_get t p); [discriminate|reflexivity|discriminate].
        - rewrite strip_read in Hp. unfold uread. destruct (stc_prod e opc t l r); [discriminate|reflexivity|discriminate].
        - rewrite strip_read in Hp. unfold uread. destruct (st_all_prod t); [discriminate|reflexivity|discriminate]. }
      cbn [mbind res_bind]. specialize (IH t a I). destruct (urun _ t ops) as [[t'' outs]| |]; [|discriminate|discriminate]. cbn in IH |- *. congruence.
  - intros T U zero add sub addu L a ops. destruct (fw_from_inv zero add (fl_monoid _ _ _ L) a) as (t & -> & I). cbn [mbind res_bind]. revert t a I.
    set (addc := fun x y => Ok (add x y)). set (subc := fun x y => Ok (sub x y)). set (adduc := fun x u => Ok (addu x u)).
    assert (forall t o, fwc_step zero addc subc adduc t o = fw_step zero add sub addu t o) as Hsame by reflexivity.
    induction ops as [|o ops IH]; intros t a I; cbn [urun run_refusing]; [reflexivity|].
    pose proof (fw_step_refines zero add sub addu (fl_monoid _ _ _ L) (fl_comm _ _ _ L) (fl_addu _ _ _ L) t a o I) as Hr.
    destruct (fw_spec_step zero add sub addu a o) as [[a' out]| |] eqn:Es; [| |contradiction].
    + destruct Hr as (t' & Et & I'). assert (fwu_step zero addc subc adduc o t = Ok (t', Some out)) as ->.
      { apply strip_Ok. rewrite (proj2 C79_same_code), Hsame. exact Et. }
      cbn [mbind res_bind]. specialize (IH t' a' I'). destruct (urun _ t' ops) as [[t'' outs]| |]; [|discriminate|discriminate]. cbn in IH |- *. congruence.
    + assert (fwu_step zero addc subc adduc o t = Ok (t, None)) as ->.
      { assert (strip (fwu_step zero addc subc adduc o t) = Panic) as Hp by (rewrite (proj2 C79_same_code), Hsame; exact Hr).
        destruct o as [p u|i|l r]; cbn [fwu_step] in Hp |- *; [discriminate| |].
        - rewrite strip_read in Hp. unfold uread. destruct (fwc_pref zero addc t i); [discriminate|reflexivity|discriminate].
        - rewrite strip_read in Hp. unfold uread. destruct (fwc_sum zero addc subc t l r); [discriminate|reflexivity|discriminate]. }
      cbn [mbind res_bind]. specialize (IH t a I). destruct (urun _ t ops) as [[t'' outs]| |]; [|discriminate|discriminate]. cbn in IH |- *. congruence.
Qed.
Print Assumptions C79_refused.

(** C79: the candidates are needed.  After one caught overflow pref(1) counts the addition and pref(2) does not, so that
    sum(1, 2) is no longer the value at position 1; the product over two positions of a segment tree and the values there disagree likewise. *)
Theorem C79_disagree :
  (exists t t' : fenwick Z, fwc_from 0%Z (iadd u8) [100; 100]%Z = Ok t /\
     urun (fwu_step 0%Z (iadd u8) (isub u8) (iadd u8)) t [FwAdd 0 100%Z; FwPref 1; FwPref 2; FwSum 1 2] =
       Ok (t', [None; Some (FwVal 200%Z); Some (FwVal 200%Z); Some (FwVal 0%Z)])) /\
  (exists t t' : segtree Z, stc_from 0%Z (iadd u8) [100; 100]%Z = Ok t /\
     urun (stu_step 0%Z (iadd u8)) t [SgSet 0 200%Z; SgGet 0; SgGet 1; SgProd 0 2; SgSet 1 50%Z; SgProd 0 2] =
       Ok (t', [None; Some (SgVal 200%Z); Some (SgVal 100%Z); Some (SgVal 200%Z); Some SgUnit; Some (SgVal 250%Z)])).
Proof. split; (eexists _, _; split; [vm_compute; reflexivity|]; vm_compute; reflexivity). Qed.
Print Assumptions C79_disagree.

(** Non-vacuity: u8 sums meet the hypotheses; the histories of C79_disagree are instances. *)
Example C79_nonvacuous : monoid_laws 0%Z Z.add /\ or_panics Z.add (iadd u8) /\ or_panics Z.sub (isub u8) /\ fw_laws 0%Z Z.add Z.add /\
  stc_from 0%Z (iadd u8) [100; 100]%Z = st_from 0%Z Z.add [100; 100]%Z.
Proof.
  split; [split; intros; lia|]. split; [intros x y; unfold iadd, chk; case_match; auto|]. split; [intros x y; unfold isub, chk; case_match; auto|].
  split; [split; [split; intros; lia|intros; lia|intros; lia]|]. reflexivity.
Qed.
