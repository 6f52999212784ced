(** Proofs about FenwickTree with caught panics of the additions. *)
From Verif Require Import Prelude UtilModel UtilProof ArraySpec PartialOps FenwickSpec FenwickModel FenwickProof FenwickProps FenwickChkModel FenwickChkProof
  SegtreeSpec Unwind TreeUnwindSpec TreeUnwindModel TreeUnwindProof.

Section fenwick.
  Context {T U : Type} (zero : T) (add sub : T -> T -> T) (addu : T -> U -> T) (LF : fw_laws zero add addu).
  Context (addc subc : T -> T -> res T) (adduc : T -> U -> res T).
  Context (OA : or_panics add addc) (OS : or_panics sub subc) (OU : or_panics addu adduc).
  Implicit Types (C : list (list T)).
  Local Notation R := (R zero add).
  Let L := fl_monoid _ _ _ LF.

  Definition fnode C (ary : list T) j : Prop := exists v, ary !! (j - 1) = Some v /\ R C (j - lowbit j) j v.
  Record FCI (t : fenwick T) C : Prop := {
    fc_n : fw_n t = length C;
    fc_len : length (fw_ary t) = length C;
    fc_node : forall j, 1 <= j <= length C -> fnode C (fw_ary t) j }.

  Lemma FCI_start t a : FInv zero add t a -> FCI t (map (fun x => [x]) a).
  Proof.
    intros [H1 H2 H3]. split; rewrite ?map_length; [exact H1|exact H2|]. intros j Hj. exists (mprod zero add (slice a (j - lowbit j) j)). split; [apply H3; exact Hj|].
    exists (slice a (j - lowbit j) j). split; [|reflexivity]. unfold slice. change (map ?f ?l) with (f <$> l). rewrite <- fmap_drop, <- fmap_take. apply (choice_singletons (S := T)).
  Qed.

  Lemma R_add C p u lo hi v : lo <= p < hi -> hi <= length C -> R C lo hi v -> R (alter (map (fun x => addu x u)) p C) lo hi (addu v u).
  Proof.
    intros Hp Hhi (ys & Hc & ->). unfold choice in Hc. apply Forall2_same_length_lookup in Hc as [H1 H2]. rewrite slice_length in H1 by exact Hhi.
    destruct (lookup_lt_is_Some_2 ys (p - lo)) as [y Hy]; [lia|]. exists (<[p - lo := addu y u]> ys). split.
    - apply Forall2_same_length_lookup. split; [rewrite slice_length, insert_length by (rewrite alter_length; lia); exact H1|]. intros i c z Hc Hz.
      assert (lo + i < hi) as Hi. { apply lookup_lt_Some in Hz. rewrite insert_length in Hz. lia. }
      rewrite slice_lookup in Hc by exact Hi. destruct (decide (i = p - lo)) as [->|Hne].
      + rewrite list_lookup_insert in Hz by lia. injection Hz as <-. replace (lo + (p - lo)) with p in Hc by lia. rewrite list_lookup_alter in Hc.
        destruct (C !! p) as [c0|] eqn:Ec; [|discriminate]. injection Hc as <-. change (map ?f ?l) with (f <$> l). apply elem_of_list_fmap. exists y. split; [reflexivity|].
        eapply H2; [|exact Hy]. rewrite slice_lookup by lia. replace (lo + (p - lo)) with p by lia. exact Ec.
      + rewrite list_lookup_insert_ne in Hz by auto. rewrite list_lookup_alter_ne in Hc by lia. eapply H2; [|exact Hz]. rewrite slice_lookup by exact Hi. exact Hc.
    - rewrite (fl_addu _ _ _ LF). rewrite <- (slice_full ys) at 1. symmetry.
      rewrite <- (slice_full (<[p - lo:=addu y u]> ys)), insert_length.
      apply (P_update zero add L ys 0 (length ys) (p - lo) y); [lia|lia|apply (fl_comm _ _ _ LF)|exact Hy|apply (fl_addu _ _ _ LF)].
  Qed.

  Lemma add_cells t C p u : FCI t C ->
    match fwu_add adduc p u t with
    | Ok (t', Some _) => FCI t' (alter (map (fun x => addu x u)) p C)
    | Ok (t', None) => p < length C /\ FCI t' (alter (fun c => c ++ map (fun x => addu x u) c) p C)
    | _ => False
    end.
  Proof.
    intros [Hn Hlen Hnode]. unfold fwu_add. rewrite (ubind_ok _ _ _ t (fw_n t)) by (apply uread_ok; reflexivity). rewrite Hn. set (n := length C) in *.
    set (C1 := alter (fun c => c ++ map (fun x => addu x u) c) p C). set (C2 := alter (map (fun x => addu x u)) p C).
    assert (length C1 = n) as L1 by apply alter_length. assert (length C2 = n) as L2 by apply alter_length.
    assert (forall lo hi v, hi <= n -> R C lo hi v -> R C1 lo hi v) as M1.
    { intros lo hi v Hhi. apply R_mono; [lia|exact Hhi|]. intros i c c' _ E1 E2. unfold C1 in E2. destruct (decide (i = p)) as [->|Hne].
      - rewrite list_lookup_alter, E1 in E2. injection E2 as <-. intros z Hz. apply elem_of_app. auto.
      - rewrite list_lookup_alter_ne, E1 in E2 by auto. injection E2 as <-. auto. }
    assert (forall lo hi v, hi <= n -> R C2 lo hi v -> R C1 lo hi v) as M2.
    { intros lo hi v Hhi. apply R_mono; [lia|lia|]. intros i c c' _ E1 E2. unfold C1, C2 in *. destruct (decide (i = p)) as [->|Hne].
      - rewrite list_lookup_alter in E1, E2. destruct (C !! p) as [c0|]; [|discriminate]. injection E1 as <-. injection E2 as <-. intros z Hz. apply elem_of_app. auto.
      - rewrite list_lookup_alter_ne in E1, E2 by auto. rewrite E1 in E2. injection E2 as <-. auto. }
    assert (forall j, 1 <= j <= n -> ~ covers j (p + 1) -> slice C2 (j - lowbit j) j = slice C (j - lowbit j) j) as Hout.
    { intros j Hj Hc. unfold covers in Hc. apply slice_ext. intros i Hi. unfold C2. apply list_lookup_alter_ne. lia. }
    assert (forall j i, covers j i \/ ~ covers j i) as Hdec by (intros; unfold covers; lia).
    apply (uloop_inv
      (fun m i t' => m = n + 1 - i /\ p + 1 <= i /\ exists ary, t' = Fenwick n ary /\ length ary = n /\
          (forall j, 1 <= j <= n -> (covers j (p + 1) /\ i <= j <-> covers j i)) /\
          (forall j, 1 <= j <= n -> fnode C1 ary j) /\
          (forall j, 1 <= j <= n -> (covers j (p + 1) /\ j < i -> fnode C2 ary j) /\
             (~ (covers j (p + 1) /\ j < i) -> ary !! (j - 1) = fw_ary t !! (j - 1))))
      (fun _ t' => FCI t' C2) (fun t' => p < n /\ FCI t' C1) (fwu_add_step adduc u)) with (m := n + 1 - (p + 1)).
    - intros m i s (-> & Hpi & ary & -> & Hla & Hch & HA & HB). unfold fwu_add_step.
      rewrite (ubind_ok _ _ _ (Fenwick n ary) n) by (apply uread_ok; reflexivity). destruct (Nat.leb_spec i n) as [Hin|Hin].
      + pose proof (lowbit_pos i ltac:(lia)) as Hl. assert (covers i (p + 1)) as Hci by (apply Hch; [lia|]; apply covers_self; lia).
        assert (ary !! (i - 1) = fw_ary t !! (i - 1)) as Ei by (apply HB; [lia|]; intros [_ ?]; lia).
        destruct (Hnode i ltac:(lia)) as (v & Hv & Rv). rewrite <- Ei in Hv. unfold ubind at 1. unfold uwrite. cbn [fw_ary fw_n]. rewrite (vget_ok _ _ _ Hv). cbn [mbind res_bind].
        destruct (OU v u) as [->| ->]; cbn [mbind res_bind].
        2:{ split; [lia|]. split; cbn [fw_n fw_ary]; [congruence|congruence|]. rewrite L1. exact HA. }
        rewrite vset_ok by lia. cbn [mbind res_bind uret]. exists (n + 1 - (i + lowbit i)). split; [lia|]. split; [reflexivity|]. split; [lia|].
        eexists. split; [reflexivity|]. split; [rewrite insert_length; exact Hla|].
        assert (R C2 (i - lowbit i) i (addu v u)) as R2 by (apply R_add; [unfold covers in Hci; lia|exact Hin|exact Rv]).
        assert (forall j, 1 <= j <= n -> (covers j (p + 1) /\ i + lowbit i <= j <-> covers j (i + lowbit i))) as Hch'.
        { intros j Hj. rewrite <- (covers_next i j) by lia. rewrite <- Hch by lia. split.
          - intros [H1 H2]. split; [split; [exact H1|lia]|lia].
          - intros [[H1 H2] H3]. split; [exact H1|]. assert (covers j (i + lowbit i)) as Hc; [|unfold covers in Hc; lia].
            apply covers_next_1; [lia|lia| |exact H3]. apply (Hch j Hj); auto. }
        split; [exact Hch'|]. split.
        * intros j Hj. destruct (decide (j = i)) as [->|Hne].
          -- exists (addu v u). split; [apply list_lookup_insert; lia|]. apply M2; [lia|exact R2].
          -- destruct (HA j Hj) as (w & W1 & W2). exists w. rewrite list_lookup_insert_ne by lia. auto.
        * intros j Hj. destruct (HB j Hj) as [HB1 HB2]. destruct (decide (j = i)) as [->|Hne].
          { split; [|intros Hno; exfalso; apply Hno; split; [exact Hci|lia]]. intros _. exists (addu v u). split; [apply list_lookup_insert; lia|exact R2]. }
          unfold fnode. rewrite list_lookup_insert_ne by lia. split.
          -- intros [H1 H2]. apply HB1. split; [exact H1|]. destruct (decide (j < i)) as [|Hge]; [assumption|exfalso].
             assert (covers j i) as H3 by (apply Hch; [lia|]; split; [exact H1|lia]).
             assert (covers j (i + lowbit i)) as Hc by (apply covers_next_1; [lia|lia|exact H3|exact Hne]). unfold covers in Hc. lia.
          -- intros Hno. apply HB2. intros [H1 H2]. apply Hno. split; [exact H1|lia].
      + cbn [uret]. split; cbn [fw_n fw_ary]; rewrite ?L2; [reflexivity|exact Hla|]. intros j Hj. destruct (HB j Hj) as [HB1 HB2]. destruct (Hdec j (p + 1)) as [Hc|Hc].
        * apply HB1. split; [exact Hc|lia].
        * destruct (Hnode j Hj) as (v & Hv & Rv). exists v. rewrite HB2 by tauto. split; [exact Hv|]. unfold TreeUnwindProof.R in *. rewrite Hout by assumption. exact Rv.
    - lia.
    - split; [reflexivity|]. split; [lia|]. exists (fw_ary t). split; [destruct t; cbn in *; congruence|]. split; [exact Hlen|]. split.
      + intros j Hj. unfold covers. lia.
      + split.
        * intros j Hj. destruct (Hnode j Hj) as (v & Hv & Rv). exists v. split; [exact Hv|]. apply M1; [lia|exact Rv].
        * intros j Hj. split; [unfold covers; lia|]. reflexivity.
  Qed.

  Lemma pref_cells t C idx : FCI t C ->
    match fwc_pref zero addc t idx with
    | Ok v => idx <= length C /\ some_prod zero add (slice C 0 idx) v
    | Panic => True
    | Diverge => False
    end.
  Proof.
    intros [Hn Hlen Hnode]. unfold fwc_pref. destruct (decide (idx <= length C)) as [Hidx|Hidx].
    2:{ replace (idx + 1) with (S idx) by lia. cbn [rloop]. destruct (Nat.ltb_spec 0 idx); [|lia]. rewrite vget_panic by lia. exact I. }
    match goal with |- match rloop _ ?st _ with _ => _ end => set (step := st) end.
    assert (forall fuel i sum, i < fuel -> i <= idx -> R C i idx sum ->
      match rloop fuel step (i, sum) with Ok v => R C 0 idx v | Panic => True | Diverge => False end) as G.
    { induction fuel as [|fuel IH]; intros i sum Hf Hi Rs; [lia|]. cbn [rloop].
      let b := eval cbv beta iota delta [step] in (step (i, sum)) in change (step (i, sum)) with b.
      destruct (Nat.ltb_spec 0 i) as [H0|H0].
      - destruct (Hnode i ltac:(lia)) as (v & Hv & Rv). rewrite (vget_ok _ _ _ Hv). cbn [mbind res_bind]. destruct (OA sum v) as [->| ->]; cbn [mbind res_bind]; [|exact I].
        rewrite land_pred by lia. pose proof (lowbit_pos i H0). pose proof (lowbit_le i). apply IH; [lia|lia|]. rewrite (fl_comm _ _ _ LF).
        apply (R_app zero add L) with (m := i); [lia|exact Rv|exact Rs].
      - cbn [mbind res_bind]. assert (i = 0) as -> by lia. exact Rs. }
    specialize (G (idx + 1) idx zero ltac:(lia) ltac:(lia) (R_nil zero add C idx idx ltac:(lia))).
    destruct (rloop _ _ _); [|exact I|exact G]. split; [exact Hidx|exact G].
  Qed.

  Lemma fw_step_cells t C o : FCI t C ->
    exists t' out C', fwu_step zero addc subc adduc o t = Ok (t', out) /\ fw_cells_step zero add sub addu C o out C' /\ FCI t' C'.
  Proof.
    intros I. destruct o as [p u|i|l r]; cbn [fwu_step fw_cells_step].
    - pose proof (add_cells t C p u I) as H. unfold ubind. destruct (fwu_add adduc p u t) as [[t' [w|]]| |]; [| |contradiction|contradiction]; cbn [mbind res_bind].
      + exists t', (Some FwUnit). eexists. split; [reflexivity|]. split; [reflexivity|exact H].
      + destruct H as [Hp H]. exists t', None. eexists. split; [reflexivity|]. split; [split; [exact Hp|reflexivity]|exact H].
    - unfold uread. pose proof (pref_cells t C i I) as H. destruct (fwc_pref zero addc t i) as [v| |]; cbn [mbind res_bind]; [| |contradiction].
      + exists t, (Some (FwVal v)), C. auto.
      + exists t, None, C. auto.
    - unfold uread, fwc_sum. pose proof (pref_cells t C r I) as Hr. pose proof (pref_cells t C l I) as Hl.
      destruct (fwc_pref zero addc t r) as [x| |]; cbn [mbind res_bind]; [|exists t, None, C; auto|contradiction].
      destruct (fwc_pref zero addc t l) as [y| |]; cbn [mbind res_bind]; [|exists t, None, C; auto|contradiction].
      destruct (OS x y) as [->| ->]; cbn [mbind res_bind]; [|exists t, None, C; auto].
      exists t, (Some (FwVal (sub x y))), C. split; [reflexivity|]. split; [|exact I]. split; [reflexivity|]. split; [tauto|]. split; [tauto|]. exists x, y. tauto.
  Qed.
  Lemma fw_run_cells ops : forall t C, FCI t C ->
    exists t' outs C', urun (fwu_step zero addc subc adduc) t ops = Ok (t', outs) /\ cells_run (fw_cells_step zero add sub addu) C ops outs C' /\ FCI t' C'.
  Proof.
    induction ops as [|o ops IH]; intros t C I; cbn [urun cells_run].
    - exists t, [], C. auto.
    - destruct (fw_step_cells t C o I) as (t1 & out & c1 & -> & H1 & I1). cbn [mbind res_bind].
      destruct (IH t1 c1 I1) as (t2 & outs & c2 & -> & H2 & I2). cbn [mbind res_bind]. exists t2, (out :: outs), c2. split; [reflexivity|]. split; [|exact I2]. exists c1. auto.
  Qed.
End fenwick.

(** Nobody catching: the checked model. *)
Lemma add_strip {T U} (adduc : T -> U -> res T) p u t : (a ← strip (fwu_add adduc p u t); Ok a.1) = fwc_add adduc t p u.
Proof.
  unfold fwu_add, fwc_add. rewrite strip_bind, strip_read. cbn [mbind res_bind]. set (n := fw_n t).
  assert (forall fuel i ary, strip (uloop fuel (fwu_add_step adduc u) i (Fenwick n ary)) =
    (ary ← rloop fuel (fun '(idx, ary) =>
            if idx <=? n then
              x ← vget ary (idx - 1);
              x ← adduc x u;
              ary ← vset ary (idx - 1) x;
              Ok (inl (idx + lowbit idx, ary))
            else Ok (inr ary)) (i, ary); Ok (Fenwick n ary, tt))) as G.
  { induction fuel as [|fuel IH]; intros i ary; [reflexivity|]. cbn [uloop rloop]. rewrite strip_bind.
    let a := constr:(fwu_add_step adduc u i) in let b := eval cbv beta delta [fwu_add_step] in a in change a with b. rewrite strip_bind, strip_read. cbn [mbind res_bind fw_n].
    destruct (i <=? n).
    - rewrite strip_bind, strip_write. cbn [fw_ary fw_n]. destruct (vget ary (i - 1)) as [x| |]; cbn [mbind res_bind]; [|reflexivity|reflexivity].
      destruct (adduc x u) as [y| |]; cbn [mbind res_bind]; [|reflexivity|reflexivity]. destruct (vset ary (i - 1) y) as [ary'| |]; cbn [mbind res_bind]; [|reflexivity|reflexivity].
      rewrite strip_ret. cbn [mbind res_bind]. apply IH.
    - rewrite strip_ret. reflexivity. }
  destruct t as [n' ary]. cbn [fw_n fw_ary] in *. subst n. rewrite G. destruct (rloop _ _ _); reflexivity.
Qed.
