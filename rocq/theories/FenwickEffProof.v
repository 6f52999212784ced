(** Cost of the calls of FenwickEffModel.v and SparseEffModel.v. *)
From stdpp Require Import relations.
From Verif Require Import Prelude Eff UtilModel UtilProof ArraySpec LazySpec FenwickSpec FenwickModel FenwickChkModel FenwickEffModel SparseModel SparseProof SparseChkModel SparseEffModel
  SegtreeModel SegtreeEffModel EffSpec SegtreeEffProof.

Lemma clear_bit k q : Nat.land (2 ^ k * (2 * q + 1)) (2 ^ k * (2 * q + 1) - 1) = 2 ^ Datatypes.S k * q.
Proof. assert (0 < 2 ^ k) by (apply Nat.neq_0_lt_0, Nat.pow_nonzero; lia). rewrite land_pred by nia. rewrite lowbit_decomp, Nat.pow_succ_r'. nia. Qed.
Lemma log2_lowbit_le n : Nat.log2 (lowbit n) <= Nat.log2 n.
Proof. apply Nat.log2_le_mono, lowbit_le. Qed.
Lemma lowbit_shift k q : lowbit (2 ^ k * q) = 2 ^ k * lowbit q.
Proof. induction k as [|k IH]; [rewrite !Nat.pow_0_r, !Nat.mul_1_l; reflexivity|]. rewrite Nat.pow_succ_r', <- !Nat.mul_assoc, lowbit_even, IH. reflexivity. Qed.
Lemma lg_nat n x : lg (Z.of_nat n) = Ok x -> Z.to_nat x = Nat.log2 n.
Proof.
  unfold lg, leading_zeros, csub. destruct (Z.eqb_spec (Z.of_nat n) 0) as [E|E]; [destruct (Z.leb_spec 64 (64 - 1)); [lia|discriminate]|].
  case_match; [|discriminate]. intros [= <-]. replace (64 - 1 - (64 - 1 - Z.log2 (Z.of_nat n)))%Z with (Z.log2 (Z.of_nat n)) by lia.
  symmetry. apply Nat.log2_unique; [lia|]. pose proof (Z.log2_spec (Z.of_nat n) ltac:(lia)) as U. pose proof (Z.log2_nonneg (Z.of_nat n)).
  split; [apply Nat2Z.inj_le|apply Nat2Z.inj_lt]; rewrite Nat2Z.inj_pow, ?Nat2Z.inj_succ, Z2Nat.id by lia; apply U.
Qed.

Section Fenwick.
  Context {W T U : Type} (R : relation W) (zero : T) (addE subE : T -> T -> eff W T) (adduE : T -> U -> eff W T).
  Context (addc subc : T -> T -> res T) (adduc : T -> U -> res T).
  Context (A : forall a b, spends R 1 (fun _ => 0) (addE a b) (addc a b)).
  Context (AS : forall a b, spends R 1 (fun _ => 0) (subE a b) (subc a b)).
  Context (AU : forall a u, spends R 1 (fun _ => 0) (adduE a u) (adduc a u)).
  Notation spends := (spends R).
  Local Ltac lift := apply spends_lift_bind; intros ? ?.
  Local Ltac call c := apply (spends_call_bind R _ c); [first [apply A|apply AS|apply AU]|lia|intros ? ?].

  Definition fshape (n : nat) (t : fenwick T) : Prop := fw_n t = n /\ length (fw_ary t) = n.

  Lemma ffrom_spends a : spends (2 * length a) (fun _ => 0) (fwe_from zero addE a) (fwc_from zero addc a).
  Proof.
    unfold fwe_from, fwc_from. cbn zeta. apply (spends_part_bind R (2 * length a) _ 0); [|lia|intros; apply spends_ret; lia].
    apply (spends_for R _ 2); [|unfold range_incl; rewrite seq_length; lia]. intros i ary _. lift. lift. call 1. lift. destruct (_ <=? _); [|apply spends_ret; lia].
    lift. lift. call 0. apply spends_lift. lia.
  Qed.
  Lemma vset_length {B} (l : list B) i x l' : vset l i x = Ok l' -> length l' = length l.
  Proof. unfold vset. case_match; [|discriminate]. intros [= <-]. apply insert_length. Qed.
  Lemma ffrom_shape a t : fwc_from zero addc a = Ok t -> fshape (length a) t.
  Proof.
    unfold fwc_from. cbn zeta. intros E. apply rbind_ok_inv in E as (ary & E & E1). injection E1 as <-. split; [reflexivity|]. cbn [fw_ary].
    assert (length (fw_ary (fw_new zero (length a))) = length a) as H0 by apply replicate_length. revert H0 E. generalize (fw_ary (fw_new zero (length a))). generalize (range_incl 1 (length a)).
    intros xs. induction xs as [|i xs IH]; intros ary0 H0; cbn [rfor]; [intros [= <-]; exact H0|]. intros E. apply rbind_ok_inv in E as (ary1 & E1 & E). revert E. apply IH.
    apply rbind_ok_inv in E1 as (? & _ & E1). apply rbind_ok_inv in E1 as (? & _ & E1). apply rbind_ok_inv in E1 as (? & _ & E1). apply rbind_ok_inv in E1 as (ary2 & E2 & E1). apply vset_length in E2.
    destruct (_ <=? _); [|injection E1 as <-; lia]. apply rbind_ok_inv in E1 as (? & _ & E1). apply rbind_ok_inv in E1 as (? & _ & E1). apply rbind_ok_inv in E1 as (? & _ & E1). apply vset_length in E1. lia.
  Qed.

  Lemma pref_spends n t i : fshape n t -> spends (Nat.log2 n + 1) (fun _ => 0) (fwe_pref zero addE t i) (fwc_pref zero addc t i).
  Proof.
    intros [Hn Hl]. unfold fwe_pref, fwc_pref. destruct (Nat.le_gt_cases i n) as [Hi|Hi].
    - set (pot := fun s : nat * T => if s.1 =? 0 then 0 else Nat.log2 s.1 - Nat.log2 (lowbit s.1) + 1).
      eapply (spends_weak R (pot (i, zero))); [|subst pot; cbn [fst]; pose proof (Nat.log2_le_mono i n Hi); destruct (i =? 0); lia|intros ? _; apply Nat.le_refl].
      apply (spends_loop R (fun _ => True) pot (fun _ => 0)); [|auto|exact Logic.I]. subst pot. clear -A. intros [i s] _. cbn [fst].
      destruct (Nat.ltb_spec 0 i) as [Hi|Hi]; [|apply spends_ret; lia]. destruct (Nat.eqb_spec i 0) as [->|_]; [lia|]. lift.
      call (Nat.log2 i - Nat.log2 (lowbit i)). apply spends_ret. cbn [fst]. destruct (odd_decomp i Hi) as (k & q & ->). rewrite clear_bit.
      pose proof (Nat.pow_nonzero 2 k). destruct (Nat.eqb_spec (2 ^ Datatypes.S k * q) 0) as [Z|NZ]; [lia|].
      assert (q <> 0) as Hq by (intros ->; apply NZ; lia). rewrite lowbit_decomp, Nat.log2_pow2 by lia.
      rewrite lowbit_shift. pose proof (lowbit_pos q ltac:(lia)). rewrite (Nat.mul_comm _ (lowbit q)), Nat.log2_mul_pow2 by lia.
      pose proof (Nat.log2_le_mono (2 ^ Datatypes.S k * q) (2 ^ k * (2 * q + 1)) ltac:(rewrite Nat.pow_succ_r'; nia)) as HM.
      rewrite (Nat.mul_comm _ q), Nat.log2_mul_pow2 in * by lia. pose proof (log2_lowbit_le q). lia.
    - replace (i + 1) with (Datatypes.S i) by lia. cbn [eloop rloop]. destruct (Nat.ltb_spec 0 i) as [_|]; [|lia].
      assert (vget (fw_ary t) (i - 1) = Panic) as -> by (apply vget_panic; lia). intros w. reflexivity.
  Qed.

  Lemma add_spends n t i u : fshape n t -> spends (Nat.log2 n + 1) (fun _ => 0) (fwe_add adduE t i u) (fwc_add adduc t i u).
  Proof.
    intros [Hn Hl]. unfold fwe_add, fwc_add. cbn zeta. rewrite Hn. apply (spends_part_bind R (Nat.log2 n + 1) _ 0); [|lia|intros; apply spends_ret; lia].
    set (pot := fun s : nat * list T => if s.1 <=? n then Nat.log2 n + 1 - Nat.log2 (lowbit s.1) else 0).
    eapply (spends_weak R (pot (i + 1, fw_ary t))); [|subst pot; cbn [fst]; destruct (_ <=? _); lia|intros ? _; apply Nat.le_refl].
    apply (spends_loop R (fun s => 1 <= s.1) pot (fun _ => 0)); [| |cbn [fst]; lia]; subst pot; clear -AU.
    - intros [i s] Hi. cbn [fst] in *. destruct (Nat.leb_spec i n) as [Hin|Hin]; [|apply spends_ret; lia]. pose proof (log2_lowbit_le i) as Hlb. pose proof (Nat.log2_le_mono i n Hin) as Hln.
      lift. call (Nat.log2 n - Nat.log2 (lowbit i)). lift. apply spends_ret. cbn [fst]. destruct (Nat.leb_spec (i + lowbit i) n) as [Hj|Hj]; [|lia].
      destruct (odd_decomp i ltac:(lia)) as (k & q & ->). rewrite lowbit_decomp in *. rewrite Nat.log2_pow2 in * by lia.
      replace (2 ^ k * (2 * q + 1) + 2 ^ k) with (2 ^ Datatypes.S k * (q + 1)) in * by (rewrite Nat.pow_succ_r'; nia). rewrite lowbit_shift.
      pose proof (lowbit_pos (q + 1) ltac:(lia)). rewrite (Nat.mul_comm _ (lowbit (q + 1))), Nat.log2_mul_pow2 by lia. lia.
    - intros [i s] s' Hi. cbn [fst] in *. destruct (_ <=? _); [|discriminate]. intros E. apply rbind_ok_inv in E as (? & _ & E). apply rbind_ok_inv in E as (? & _ & E). apply rbind_ok_inv in E as (? & _ & E).
      injection E as <-. cbn [fst]. lia.
  Qed.
  Lemma add_shape n t i u t' : fshape n t -> fwc_add adduc t i u = Ok t' -> fshape n t'.
  Proof.
    intros [Hn Hl]. unfold fwc_add. cbn zeta. rewrite Hn. intros E. apply rbind_ok_inv in E as (ary & E & E1). injection E1 as <-. split; [reflexivity|]. cbn [fw_ary]. revert Hl E.
    generalize (fw_ary t). generalize (i + 1). generalize (n + 2). intros fuel. induction fuel as [|fuel IH]; intros j ary0 H0; [discriminate|]. cbn [rloop]. intros E. apply rbind_ok_inv in E as (r & E1 & E).
    destruct (j <=? n).
    - apply rbind_ok_inv in E1 as (? & _ & E1). apply rbind_ok_inv in E1 as (? & _ & E1). apply rbind_ok_inv in E1 as (ary2 & E2 & E1). injection E1 as <-. apply vset_length in E2. eapply IH; [|exact E]. lia.
    - injection E1 as <-. injection E as <-. exact H0.
  Qed.

  Lemma sum_spends n t l r : fshape n t -> spends (2 * (Nat.log2 n + 1) + 1) (fun _ => 0) (fwe_sum zero addE subE t l r) (fwc_sum zero addc subc t l r).
  Proof.
    intros H. unfold fwe_sum, fwc_sum. apply (spends_part_bind R (Nat.log2 n + 1) _ (Nat.log2 n + 2)); [apply pref_spends, H|lia|intros x _].
    apply (spends_part_bind R (Nat.log2 n + 1) _ 1); [apply pref_spends, H|lia|intros y _]. apply AS.
  Qed.

  Lemma partition_point_spends n t (pred : T -> bool) predE : fshape n t -> acts R pred predE ->
    spends (3 * (Nat.log2 n + 1)) (fun _ => 0) (fwe_partition_point zero addE t predE) (fwc_partition_point zero addc t pred).
  Proof.
    intros [Hn Hl] P. unfold fwe_partition_point, fwc_partition_point. rewrite Hn. apply spends_lift_bind. intros top Et. apply lg_nat in Et. rewrite Et.
    apply (spends_part_bind R (3 * (Nat.log2 n + 1)) _ 0); [|lia|intros [? ?] _; apply spends_ret; lia]. apply (spends_for R _ 3); [|unfold range_incl; rewrite rev_length, seq_length; lia].
    intros i [pos s] _. cbn zeta. destruct (_ <=? _); [|apply spends_ret; lia]. lift. call 2. apply (spends_pred R pred predE (acts_spends R _ _ P) _ 1); [lia|].
    destruct (pred _); [|apply spends_ret; lia]. call 0. apply spends_ret. lia.
  Qed.

  Lemma fstep_spends n t o : fshape n t -> spends (fenwick_calls n o) (fun _ => 0) (fwe_step zero addE subE adduE t o) (fwc_step zero addc subc adduc t o).
  Proof.
    intros H. destruct o as [i u|i|l r]; cbn [fenwick_calls fwe_step fwc_step].
    - eapply (spends_part_bind R _ _ 0); [apply add_spends, H|lia|intros; apply spends_ret; lia].
    - eapply (spends_part_bind R _ _ 0); [apply pref_spends, H|lia|intros; apply spends_ret; lia].
    - eapply (spends_part_bind R _ _ 0); [apply sum_spends, H|lia|intros; apply spends_ret; lia].
  Qed.
  Lemma fstep_shape n t o t' out : fshape n t -> fwc_step zero addc subc adduc t o = Ok (t', out) -> fshape n t'.
  Proof.
    intros H. destruct o as [i u|i|l r]; cbn [fwc_step]; intros E; apply rbind_ok_inv in E as (x & E1 & E); injection E as <- _; [|exact H|exact H]. eapply add_shape; eassumption.
  Qed.

  Lemma fhistory_spends a ops : spends (2 * length a + sum_list_with (fenwick_calls (length a)) ops) (fun _ => 0)
    (t <* fwe_from zero addE a ;* erun (fwe_step zero addE subE adduE) t ops) (t ← fwc_from zero addc a; ArraySpec.run (fwc_step zero addc subc adduc) t ops).
  Proof.
    eapply spends_part_bind; [apply ffrom_spends|reflexivity|]. intros t Ht. apply ffrom_shape in Ht.
    pose proof (spends_run R (fshape (length a)) (fun _ => True) id (fenwick_calls (length a)) (fwe_step zero addE subE adduE) (fwc_step zero addc subc adduc)) as H.
    specialize (H (fun s o Hs _ => fstep_spends (length a) s o Hs) (fun s o s' out => fstep_shape (length a) s o s' out) ops t Ht). rewrite list_fmap_id in H. apply H. apply Forall_true. auto.
  Qed.
  Lemma fhistory_shape a ops t outs : (t ← fwc_from zero addc a; ArraySpec.run (fwc_step zero addc subc adduc) t ops) = Ok (t, outs) -> fshape (length a) t.
  Proof.
    intros E. apply rbind_ok_inv in E as (t0 & Ht & E). apply ffrom_shape in Ht. revert t0 outs Ht E. induction ops as [|o ops IH]; intros t0 outs Ht E; cbn [ArraySpec.run] in E; [injection E as <- _; exact Ht|].
    apply rbind_ok_inv in E as ([t1 out] & E1 & E). apply rbind_ok_inv in E as ([t2 outs2] & E2 & E). injection E as <- _. eapply IH; [|exact E2]. eapply fstep_shape; eassumption.
  Qed.
End Fenwick.

Section Sparse.
  Context {W T : Type} (R : relation W) (opE : T -> T -> eff W T) (opc : T -> T -> res T) (A : forall a b, spends R 1 (fun _ => 0) (opE a b) (opc a b)).
  Notation spends := (spends R).
  Local Ltac lift := apply spends_lift_bind; intros ? ?.
  Local Ltac call c := apply (spends_call_bind R _ c); [apply A|lia|intros ? ?].

  Lemma sfrom_spends v init : spends (length v * Nat.log2 (length v)) (fun _ => 0) (spe_from opE v init) (spc_from opc v init).
  Proof.
    unfold spe_from, spc_from. cbn zeta. apply spends_lift_bind. intros k Ek. unfold lgn in Ek. apply rbind_ok_inv in Ek as (z & Ez & Ek). injection Ek as <-. apply lg_nat in Ez. rewrite Ez. lift.
    apply (spends_for R _ (length v)); [|unfold range; rewrite seq_length; lia]. intros c data Hc. unfold spe_row, spc_row. apply spends_lift_bind. intros b Eb. apply nsub_inv in Eb as [Hb ->].
    assert (0 < 2 ^ c) by (apply Nat.neq_0_lt_0, Nat.pow_nonzero; lia).
    apply (spends_for R _ 1); [|unfold range_incl; rewrite seq_length; lia]. intros i d _. lift. lift. call 0. apply spends_lift. lia.
  Qed.
  Lemma sget_spends data l r : spends 1 (fun _ => 0) (spe_get opE data l r) (spc_get opc data l r).
  Proof. unfold spe_get, spc_get. apply spends_assert. intros _. lift. lift. lift. lift. apply A. Qed.
End Sparse.
