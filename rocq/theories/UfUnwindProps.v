(** Properties of UnionFind after caught panics (C83). *)
From Verif Require Import Prelude ArraySpec Unwind UnionFindModel UnionFindSpec UnionFindProof UnionFindRefProps UnionFindProps ReleaseModel ReleaseProps UfUnwindModel UfUnwindSpec.
From Verif Require Import IntModel.

Lemma strip_find_from fuel : forall i u, strip (ufu_find_from fuel i u) = ('(fa, r) ← uf_find_fa fuel (uf_fa u) i; Ok (Uf (uf_n u) fa (uf_sz u), r)).
Proof.
  induction fuel as [|fuel IH]; intros i u; [reflexivity|]. cbn [ufu_find_from uf_find_fa]. rewrite strip_bind, strip_read.
  destruct (vget (uf_fa u) i) as [p| |]; cbn [mbind res_bind]; [|reflexivity|reflexivity]. destruct (p =? i); [destruct u; reflexivity|].
  rewrite strip_bind, IH. destruct (uf_find_fa fuel (uf_fa u) p) as [[fa r]| |]; cbn [mbind res_bind]; [|reflexivity|reflexivity].
  rewrite strip_bind, strip_write. cbn [uf_fa uf_n uf_sz]. destruct (vset fa i r) as [fa'| |]; cbn [mbind res_bind]; [|reflexivity|reflexivity].
  rewrite strip_read. cbn [uf_fa]. destruct (vget fa' i); reflexivity.
Qed.
Lemma strip_find i u : strip (ufu_find i u) = uf_find u i.
Proof. unfold ufu_find, uf_find. apply strip_find_from. Qed.
Lemma strip_assert x u : strip (ufu_assert x u) = (_ ← rassert (x <? uf_n u); Ok (u, tt)).
Proof. unfold ufu_assert. rewrite strip_read. destruct (rassert _) as [[]| |]; reflexivity. Qed.
Lemma strip_is_same x y u : strip (ufu_is_same x y u) = uf_is_same u x y.
Proof.
  unfold ufu_is_same, uf_is_same. rewrite strip_bind, strip_assert. destruct (rassert (x <? uf_n u)) as [[]| |]; cbn [mbind res_bind]; [|reflexivity|reflexivity].
  rewrite strip_bind, strip_assert. destruct (rassert (y <? uf_n u)) as [[]| |]; cbn [mbind res_bind]; [|reflexivity|reflexivity].
  rewrite strip_bind, strip_find. destruct (uf_find u x) as [[u1 fx]| |]; cbn [mbind res_bind]; [|reflexivity|reflexivity].
  rewrite strip_bind, strip_find. destruct (uf_find u1 y) as [[u2 fy]| |]; reflexivity.
Qed.
Lemma strip_join x y u : strip (ufu_join x y u) = uf_join u x y.
Proof.
  unfold ufu_join, uf_join. rewrite strip_bind, strip_assert. destruct (rassert (x <? uf_n u)) as [[]| |]; cbn [mbind res_bind]; [|reflexivity|reflexivity].
  rewrite strip_bind, strip_assert. destruct (rassert (y <? uf_n u)) as [[]| |]; cbn [mbind res_bind]; [|reflexivity|reflexivity].
  rewrite strip_bind, strip_find. destruct (uf_find u x) as [[u1 fx]| |]; cbn [mbind res_bind]; [|reflexivity|reflexivity].
  rewrite strip_bind, strip_find. destruct (uf_find u1 y) as [[u2 fy]| |]; cbn [mbind res_bind]; [|reflexivity|reflexivity].
  destruct (fx =? fy); [reflexivity|]. rewrite strip_bind, strip_read. destruct (vget (uf_sz u2) x) as [sx| |] eqn:Ex; cbn [mbind res_bind]; [|reflexivity|reflexivity].
  rewrite strip_bind, strip_read. destruct (vget (uf_sz u2) y) as [sy| |] eqn:Ey; cbn [mbind res_bind]; [|reflexivity|reflexivity].
  rewrite strip_bind, strip_write. destruct (if (sy <? sx)%Z then (fy, fx) else (fx, fy)). destruct (vset (uf_fa u2) x y) as [fa| |]; cbn [mbind res_bind]; [|reflexivity|reflexivity].
  rewrite strip_bind, strip_write. cbn [uf_sz uf_n uf_fa]. rewrite Ex, Ey. cbn [mbind res_bind]. destruct (uadd sy sx) as [s| |]; cbn [mbind res_bind]; [|reflexivity|reflexivity].
  destruct (vset (uf_sz u2) y s); reflexivity.
Qed.
Lemma strip_size x u : strip (ufu_size x u) = uf_size u x.
Proof.
  unfold ufu_size, uf_size. rewrite strip_bind, strip_assert. destruct (rassert (x <? uf_n u)) as [[]| |]; cbn [mbind res_bind]; [|reflexivity|reflexivity].
  rewrite strip_bind, strip_find. destruct (uf_find u x) as [[u1 fx]| |]; cbn [mbind res_bind]; [|reflexivity|reflexivity].
  rewrite strip_read. destruct (vget (uf_sz u1) fx); reflexivity.
Qed.
Lemma strip_groups u : strip (ufu_groups u) = uf_groups u.
Proof.
  unfold ufu_groups, uf_groups, uf_groups_loop. rewrite strip_bind, strip_read. cbn [mbind res_bind]. rewrite strip_bind.
  rewrite (strip_for _ (fun i '(u, result) => '(u, r) ← uf_find u i; g ← vget result r; result ← vset result r (g ++ [i]); Ok (u, result))).
  - destruct (rfor _ _ _) as [[u1 result]| |]; reflexivity.
  - intros i result s. rewrite strip_bind, strip_find. destruct (uf_find s i) as [[u1 r]| |]; cbn [mbind res_bind]; [|reflexivity|reflexivity].
    rewrite strip_read. destruct (vget result r) as [g| |]; cbn [mbind res_bind]; [|reflexivity|reflexivity]. reflexivity.
Qed.

(** C83: the programs that write step by step are those of UnionFindModel.v. *)
Theorem C83_same_code_uf : forall o u, strip (ufu_step o u) = uf_step u o.
Proof.
  intros o u. destruct o as [i|x y|x y|x|]; cbn [ufu_step uf_step]; rewrite strip_bind.
  - rewrite strip_find. destruct (uf_find u i) as [[? ?]| |]; reflexivity.
  - rewrite strip_is_same. destruct (uf_is_same u x y) as [[? ?]| |]; reflexivity.
  - rewrite strip_join. destruct (uf_join u x y) as [[? ?]| |]; reflexivity.
  - rewrite strip_size. destruct (uf_size u x) as [[? ?]| |]; reflexivity.
  - rewrite strip_groups. destruct (uf_groups u) as [[? ?]| |]; reflexivity.
Qed.
Print Assumptions C83_same_code_uf.

Lemma find_refused n u i : UInv n u -> n <= i -> ufu_find i u = Ok (u, None).
Proof. intros I Hi. unfold ufu_find. cbn [ufu_find_from]. apply ubind_unwound, uread_panic, vget_panic. rewrite (ui_fa _ _ I). exact Hi. Qed.
Lemma assert_refused n u x : UInv n u -> n <= x -> ufu_assert x u = Ok (u, None).
Proof. intros I Hx. apply uread_panic. rewrite (ui_n _ _ I). destruct (Nat.ltb_spec x n); [lia|reflexivity]. Qed.
Lemma assert_ok n u x : UInv n u -> x < n -> ufu_assert x u = Ok (u, Some tt).
Proof. intros I Hx. apply uread_ok. rewrite (ui_n _ _ I). destruct (Nat.ltb_spec x n); [reflexivity|lia]. Qed.

(** Calls with vertices out of range leave no trace. *)
Lemma step_refused n u o : UInv n u -> ~ uf_valid n o -> ufu_step o u = Ok (u, None).
Proof.
  assert (forall A (k : unit -> uw uf A) x y, UInv n u -> ~ (x < n /\ y < n) -> (ufu_assert x ;;~ ubind (ufu_assert y) k) u = Ok (u, None)) as H.
  { intros A k x y I Hv. destruct (decide (x < n)) as [Hx|Hx].
    - rewrite (ubind_ok _ _ _ _ _ (assert_ok n u x I Hx)). apply ubind_unwound, (assert_refused n); [exact I|lia].
    - apply ubind_unwound, (assert_refused n); [exact I|lia]. }
  intros I Hv. destruct o as [i|x y|x y|x|]; cbn [ufu_step uf_valid] in *; try tauto; apply ubind_unwound.
  - apply (find_refused n); [exact I|lia].
  - apply H; assumption.
  - apply H; assumption.
  - apply ubind_unwound, (assert_refused n); [exact I|lia].
Qed.

(** C83: if every join gets the representatives of the two sets, a history with caught panics answers as the plain labelling
    that ignores the refused calls. *)
Lemma caught_refines n : (Z.of_nat n < 2 ^ 64)%Z -> forall ops u lab, Lab n u lab -> sizes_exact n u -> joins_of_reps_caught lab ops ->
  exists u', urun ufu_step u ops = Ok (u', run_refusing uf_spec_step lab ops).
Proof.
  intros Hn. induction ops as [|o ops IH]; intros u lab L HS HJ; [eexists; reflexivity|].
  destruct HJ as [Ho HJ]. cbn [urun run_refusing].
  assert (match uf_step u o with
    | Ok (u', out) => exists lab', uf_spec_step lab o = Ok (lab', out) /\ Lab n u' lab' /\ sizes_exact n u'
    | Panic => uf_spec_step lab o = Panic
    | Diverge => False end) as H.
  { destruct (is_query o) eqn:Q.
    - pose proof (query_step n u lab o L Q) as H. destruct (uf_step u o) as [[u' out]| |].
      + destruct H as (H1 & H2 & H3 & H4); [destruct o; auto|]. exists lab. split; [exact H1|]. split; [exact H2|].
        apply (sizes_same n u u'); try assumption. apply (lb_inv _ _ _ L).
      + apply H. destruct o; auto.
      + apply H. destruct o; auto.
    - destruct o as [| |x y| |]; try discriminate. cbn [uf_step].
      pose proof (join_step n u lab x y Hn L HS Ho) as H. destruct (uf_join u x y) as [[u' b]| |]; exact H. }
  pose proof (C83_same_code_uf o u) as Es. destruct (uf_step u o) as [[u' out]| |] eqn:Eo.
  - destruct H as (lab' & E & L' & HS'). apply strip_Ok in Es. rewrite Es, E in *. cbn [mbind res_bind].
    destruct (IH u' lab' L' HS' HJ) as (u2 & ->). cbn. eauto.
  - rewrite H in HJ |- *. rewrite (step_refused n u o (lb_inv _ _ _ L)).
    + cbn [mbind res_bind]. destruct (IH u lab L HS HJ) as (u2 & ->). cbn. eauto.
    + pose proof (lb_len _ _ _ L) as Hl. intros Hv. clear -H Hv Hl. destruct o as [i|x y|x y|x|]; cbn [uf_spec_step uf_valid] in *.
      * destruct (lookup_lt_is_Some_2 lab i) as [a Ha]; [lia|]. rewrite Ha in H. discriminate.
      * destruct (lookup_lt_is_Some_2 lab x) as [a Ha]; [lia|]. destruct (lookup_lt_is_Some_2 lab y) as [b Hb]; [lia|]. rewrite Ha, Hb in H. discriminate.
      * destruct (lookup_lt_is_Some_2 lab x) as [a Ha]; [lia|]. destruct (lookup_lt_is_Some_2 lab y) as [b Hb]; [lia|]. rewrite Ha, Hb in H. discriminate.
      * destruct (lookup_lt_is_Some_2 lab x) as [a Ha]; [lia|]. rewrite Ha in H. discriminate.
      * discriminate.
  - contradiction.
Qed.
Theorem C83_union_find : forall n ops, (Z.of_nat n < 2 ^ 64)%Z -> joins_of_reps_caught (seq 0 n) ops ->
  exists u, urun ufu_step (uf_new n) ops = Ok (u, run_refusing uf_spec_step (seq 0 n) ops).
Proof. intros n ops Hn HJ. apply (caught_refines n Hn); [apply lab_new|apply sizes_new|exact HJ]. Qed.
Print Assumptions C83_union_find.

(** Which vertices a call touches, whatever the sizes are. *)
Definition fa_of (u : uf) : nat * list nat := (uf_n u, uf_fa u).
Lemma find_fa_of u v i : fa_of u = fa_of v ->
  match uf_find u i, uf_find v i with
  | Ok (u', r), Ok (v', r') => r = r' /\ fa_of u' = fa_of v'
  | Panic, Panic | Diverge, Diverge => True
  | _, _ => False
  end.
Proof.
  destruct u as [nu fu zu], v as [nv fv zv]. unfold fa_of, uf_find. cbn [uf_n uf_fa uf_sz]. intros [= -> ->].
  destruct (uf_find_fa (S (length fv)) fv i) as [[fa r]| |]; cbn; auto.
Qed.

Lemma step_same n u v o : UInv n u -> UInv n v -> fa_of u = fa_of v -> uf_valid n o ->
  exists u' v' out rout, ufu_step o u = Ok (u', out) /\ uf_step_release v o = Ok (v', rout) /\ same_but_sizes o out (Some rout) /\
    UInv n u' /\ UInv n v' /\ fa_of u' = fa_of v'.
Proof.
  intros I J F Hv.
  assert (forall i, i < n -> forall u v, UInv n u -> UInv n v -> fa_of u = fa_of v -> exists u' v' r, ufu_find i u = Ok (u', Some r) /\ uf_find u i = Ok (u', r) /\ uf_find v i = Ok (v', r) /\
    UInv n u' /\ UInv n v' /\ fa_of u' = fa_of v' /\ root (uf_fa u) i r /\ same_roots (uf_fa u) (uf_fa u')) as Hf.
  { clear u v I J F. intros i Hi u v I J F. destruct (find_ok n u i I Hi) as (u1 & r & E1 & R & _ & S1 & _ & I1). destruct (find_ok n v i J Hi) as (v1 & r' & E2 & _ & _ & _ & _ & J1).
    pose proof (find_fa_of u v i F) as H. rewrite E1, E2 in H. destruct H as [<- H]. exists u1, v1, r. split; [apply strip_Ok; rewrite strip_find; exact E1|]. auto 10. }
  assert (forall o, (forall x y, o <> UfJoin x y) -> uf_valid n o -> match uf_step u o, uf_step v o with
     | Ok (u', out), Ok (v', rout) => same_but_sizes o (Some out) (Some rout) /\ UInv n u' /\ UInv n v' /\ fa_of u' = fa_of v' | _, _ => False end) as Hq.
  { clear o Hv. intros o Hj Hv. destruct o as [i|x y|x y|x|]; cbn [uf_step uf_valid] in *.
    - destruct (Hf i Hv u v I J F) as (u1 & v1 & r & _ & -> & -> & I1 & J1 & F1 & _). cbn. auto.
    - destruct Hv as [Hx Hy]. unfold uf_is_same. rewrite (ui_n _ _ I), (ui_n _ _ J). destruct (Nat.ltb_spec x n); [|lia]. destruct (Nat.ltb_spec y n); [|lia]. cbn [rassert mbind res_bind].
      destruct (Hf x Hx u v I J F) as (u1 & v1 & r & _ & -> & -> & I1 & J1 & F1 & _). cbn [mbind res_bind].
      destruct (Hf y Hy u1 v1 I1 J1 F1) as (u2 & v2 & r2 & _ & -> & -> & I2 & J2 & F2 & _). cbn. auto.
    - exfalso. eapply Hj. reflexivity.
    - unfold uf_size. rewrite (ui_n _ _ I), (ui_n _ _ J). destruct (Nat.ltb_spec x n); [|lia]. cbn [rassert mbind res_bind].
      destruct (Hf x Hv u v I J F) as (u1 & v1 & r & _ & -> & -> & I1 & J1 & F1 & R & S1). cbn [mbind res_bind].
      apply S1 in R as [d R]. apply rootof_lt in R as [_ R]. rewrite (ui_fa _ _ I1) in R.
      destruct (lookup_lt_is_Some_2 (uf_sz u1) r) as [s1 H1]; [rewrite (ui_sz _ _ I1); exact R|].
      destruct (lookup_lt_is_Some_2 (uf_sz v1) r) as [s2 H2]; [rewrite (ui_sz _ _ J1); exact R|].
      rewrite (vget_ok _ _ _ H1), (vget_ok _ _ _ H2). cbn. split; [split; eauto|auto].
    - unfold uf_groups. pose proof (groups_ok n u I) as (u1 & gs & Eu & I1 & _). pose proof (groups_ok n v J) as (v1 & hs & Ev & J1 & _).
      unfold uf_groups in Eu, Ev. unfold uf_groups_loop in *. rewrite (ui_n _ _ I) in *. rewrite (ui_n _ _ J) in *.
      assert (forall xs u v result, fa_of u = fa_of v ->
        let f := fun i '(u, result) => '(u, r) ← uf_find u i; g ← vget result r; result ← vset result r (g ++ [i]); Ok (u, result) in
        match rfor xs f (u, result), rfor xs f (v, result) with
        | Ok (u', r), Ok (v', r') => r = r' /\ fa_of u' = fa_of v'
        | Panic, Panic | Diverge, Diverge => True | _, _ => False end) as HL.
      { clear. induction xs as [|i xs IH]; intros u v result F; cbv zeta; cbn [rfor]; [auto|]. pose proof (find_fa_of u v i F) as H.
        destruct (uf_find u i) as [[u' r]| |], (uf_find v i) as [[v' r']| |]; try contradiction; cbn [mbind res_bind]; auto. destruct H as [-> H].
        destruct (vget result r') as [g| |]; cbn [mbind res_bind]; auto. destruct (vset result r' (g ++ [i])) as [res'| |]; cbn [mbind res_bind]; auto.
        apply IH. exact H. }
      specialize (HL (range 0 n) u v (replicate n []) F). cbv zeta in HL. destruct (rfor _ _ (u, _)) as [[u2 r]| |], (rfor _ _ (v, _)) as [[v2 r']| |]; try contradiction; try discriminate.
      cbn [mbind res_bind] in *. injection Eu as -> <-. injection Ev as -> <-. destruct HL as [-> HL]. cbn. auto. }
  assert (forall o, (forall x y, o <> UfJoin x y) -> uf_valid n o -> uf_step_release v o = uf_step v o ->
    exists u' v' out rout, ufu_step o u = Ok (u', out) /\ uf_step_release v o = Ok (v', rout) /\ same_but_sizes o out (Some rout) /\
      UInv n u' /\ UInv n v' /\ fa_of u' = fa_of v') as Hfin.
  { clear o Hv. intros o Hj Hv ->. specialize (Hq o Hj Hv). pose proof (C83_same_code_uf o u) as Es.
    destruct (uf_step u o) as [[u' out]| |]; try contradiction. destruct (uf_step v o) as [[v' rout]| |]; try contradiction.
    apply strip_Ok in Es. rewrite Es. eexists u', v', (Some out), rout. split; [reflexivity|]. split; [reflexivity|]. exact Hq. }
  destruct o as [i|x y|x y|x|].
  3: { destruct Hv as [Hx Hy]. cbn [ufu_step uf_step_release]. unfold ufu_join, uf_join_release. rewrite (ui_n _ _ J).
    destruct (Nat.ltb_spec x n) as [Hx'|]; [|lia]. destruct (Nat.ltb_spec y n) as [Hy'|]; [|lia]. cbn [rassert mbind res_bind].
    destruct (Hf x Hx u v I J F) as (u1 & v1 & rx & C1 & _ & -> & I1 & J1 & F1 & Rx & S1).
    destruct (Hf y Hy u1 v1 I1 J1 F1) as (u2 & v2 & ry & C2 & E2 & E2' & I2 & J2 & F2 & Ry & S2). cbn [mbind res_bind]. rewrite E2'. cbn [mbind res_bind].
    assert (forall A (k : bool -> uw uf A) , ubind (ufu_assert x ;;~ ufu_assert y ;;~ fx <~ ufu_find x ;~ fy <~ ufu_find y ;~
      if fx =? fy then uret false else
      uread (fun u => vget (uf_sz u) x) ;;~ uread (fun u => vget (uf_sz u) y) ;;~
      uwrite (fun u => fa ← vset (uf_fa u) x y; Ok (Uf (uf_n u) fa (uf_sz u))) ;;~
      uwrite (fun u => sx ← vget (uf_sz u) x; sy ← vget (uf_sz u) y; s ← uadd sy sx; sz ← vset (uf_sz u) y s; Ok (Uf (uf_n u) (uf_fa u) sz)) ;;~
      uret true) k u = ubind (if rx =? ry then uret false else
      uread (fun u => vget (uf_sz u) x) ;;~ uread (fun u => vget (uf_sz u) y) ;;~
      uwrite (fun u => fa ← vset (uf_fa u) x y; Ok (Uf (uf_n u) fa (uf_sz u))) ;;~
      uwrite (fun u => sx ← vget (uf_sz u) x; sy ← vget (uf_sz u) y; s ← uadd sy sx; sz ← vset (uf_sz u) y s; Ok (Uf (uf_n u) (uf_fa u) sz)) ;;~
      uret true) k u2) as ->.
    { intros A k. unfold ubind at 1. rewrite (ubind_ok _ _ _ _ _ (assert_ok n u x I Hx)), (ubind_ok _ _ _ _ _ (assert_ok n u y I Hy)), (ubind_ok _ _ _ _ _ C1), (ubind_ok _ _ _ _ _ C2).
      reflexivity. }
    destruct (Nat.eqb_spec rx ry) as [Heq|Hne].
    { eexists u2, v2, _, _. split; [reflexivity|]. split; [reflexivity|]. split; [left; reflexivity|auto]. }
    destruct (lookup_lt_is_Some_2 (uf_sz u2) x) as [sx Hsx]; [rewrite (ui_sz _ _ I2); exact Hx|]. destruct (lookup_lt_is_Some_2 (uf_sz u2) y) as [sy Hsy]; [rewrite (ui_sz _ _ I2); exact Hy|].
    destruct (lookup_lt_is_Some_2 (uf_sz v2) x) as [tx Htx]; [rewrite (ui_sz _ _ J2); exact Hx|]. destruct (lookup_lt_is_Some_2 (uf_sz v2) y) as [ty Hty]; [rewrite (ui_sz _ _ J2); exact Hy|].
    rewrite (vget_ok _ _ _ Htx), (vget_ok _ _ _ Hty). cbn [mbind res_bind]. destruct (if (ty <? tx)%Z then (ry, rx) else (rx, ry)).
    rewrite !vset_ok by (rewrite ?(ui_fa _ _ J2), ?(ui_sz _ _ J2); assumption). cbn [mbind res_bind].
    assert (acyclic (<[x:=y]> (uf_fa u2))) as HA.
    { apply (link_acyclic _ _ _ rx ry); [apply (ui_ac _ _ I2)|apply S2, S1, Rx|apply S2, Ry|exact Hne]. }
    injection F2 as En Ef. rewrite <- Ef in *. clear E2' E2.
    unfold ubind at 1. rewrite (ubind_ok _ _ _ _ _ (uread_ok (fun u => vget (uf_sz u) x) u2 sx (vget_ok _ _ _ Hsx))), (ubind_ok _ _ _ _ _ (uread_ok (fun u => vget (uf_sz u) y) u2 sy (vget_ok _ _ _ Hsy))).
    rewrite (ubind_ok _ _ u2 (Uf (uf_n u2) (<[x:=y]> (uf_fa u2)) (uf_sz u2)) tt) by (apply uwrite_ok; rewrite vset_ok by (rewrite (ui_fa _ _ I2); assumption); reflexivity).
    destruct (uadd sy sx) as [s| |] eqn:Es; [| |unfold uadd in Es; destruct (_ <? _)%Z; discriminate].
    - rewrite (ubind_ok _ _ _ (Uf (uf_n u2) (<[x:=y]> (uf_fa u2)) (<[y:=s]> (uf_sz u2))) tt).
      2: { apply uwrite_ok. cbn [uf_sz uf_n uf_fa]. rewrite (vget_ok _ _ _ Hsx), (vget_ok _ _ _ Hsy). cbn [mbind res_bind]. rewrite Es. cbn [mbind res_bind].
           rewrite vset_ok by (rewrite (ui_sz _ _ I2); exact Hy). reflexivity. }
      eexists _, _, _, _. split; [reflexivity|]. split; [reflexivity|]. split; [left; reflexivity|].
      split; [|split; [|unfold fa_of; cbn; rewrite En; reflexivity]]; split; cbn; rewrite ?insert_length; first [apply (ui_n _ _ I2)|apply (ui_n _ _ J2)|apply (ui_fa _ _ I2)|apply (ui_sz _ _ I2)|apply (ui_sz _ _ J2)|exact HA].
    - rewrite (ubind_unwound _ _ _ (Uf (uf_n u2) (<[x:=y]> (uf_fa u2)) (uf_sz u2))).
      2: { apply uwrite_panic. cbn [uf_sz uf_n uf_fa]. rewrite (vget_ok _ _ _ Hsx), (vget_ok _ _ _ Hsy). cbn [mbind res_bind]. rewrite Es. reflexivity. }
      eexists _, _, _, _. split; [reflexivity|]. split; [reflexivity|]. split; [right; auto|].
      split; [|split; [|unfold fa_of; cbn; rewrite En; reflexivity]]; split; cbn; rewrite ?insert_length; first [apply (ui_n _ _ I2)|apply (ui_n _ _ J2)|apply (ui_fa _ _ I2)|apply (ui_sz _ _ I2)|apply (ui_sz _ _ J2)|exact HA]. }
  all: apply Hfin; [intros; discriminate|exact Hv|reflexivity].
Qed.

(** C83: any calls.  A join whose size overflows unwinds after it has moved x below y; from then on the sets and
    representatives are those of a release build, where the addition wraps and the join returns true.  Only size() may answer
    differently.  A call unwinds for no other reason than that and vertices out of range, which leave no trace. *)
Theorem C83_union_find_any : forall n ops,
  exists u outs, urun ufu_step (uf_new n) ops = Ok (u, outs) /\
    Forall3 same_but_sizes ops outs (run_refusing uf_step_release (uf_new n) ops) /\
    Forall2 (fun o rout => is_Some rout <-> uf_valid n o) ops (run_refusing uf_step_release (uf_new n) ops).
Proof.
  intros n ops. assert (forall u v, UInv n u -> UInv n v -> fa_of u = fa_of v -> exists u' outs, urun ufu_step u ops = Ok (u', outs) /\
    Forall3 same_but_sizes ops outs (run_refusing uf_step_release v ops) /\
    Forall2 (fun o rout => is_Some rout <-> uf_valid n o) ops (run_refusing uf_step_release v ops)) as H; [|apply H; auto using new_inv].
  induction ops as [|o ops IH]; intros u v I J F; cbn [urun run_refusing]; [eexists _, _; split; [reflexivity|]; split; constructor|].
  assert (uf_valid n o \/ ~ uf_valid n o) as [V|V] by (destruct o; cbn; lia || tauto).
  - destruct (step_same n u v o I J F V) as (u1 & v1 & out & rout & -> & -> & Hs & I1 & J1 & F1). cbn [mbind res_bind].
    destruct (IH u1 v1 I1 J1 F1) as (u2 & outs & -> & H1 & H2). cbn [mbind res_bind]. eexists _, _. split; [reflexivity|]. split; constructor; try assumption. split; eauto.
  - rewrite (step_refused n u o I V). destruct (step_release n v o J) as [_ Hp]. rewrite (Hp V). cbn [mbind res_bind].
    destruct (IH u v I J F) as (u2 & outs & -> & H1 & H2). cbn [mbind res_bind]. eexists _, _. split; [reflexivity|]. split; constructor; try assumption.
    + destruct o; cbn; auto.
    + split; [intros [? ?]; discriminate|tauto].
Qed.
Print Assumptions C83_union_find_any.

(** Proper joins with refused calls in between; and the overflowing join of C54, caught: 3 now lies below 2, in one set with it,
    and the size stays as it was. *)
Example C83_uf_nonvacuous :
  (let ops := [UfJoin 0 1; UfJoin 0 7; UfSize 1; UfFind 5; UfJoin 1 2; UfGroups] in
   joins_of_reps_caught (seq 0 4) ops /\
   fmap snd (urun ufu_step (uf_new 4) ops) = Ok [Some (UfBool true); None; Some (UfNum 2); None; Some (UfBool true); Some (UfLists [[0; 1; 2]; [3]])]) /\
  fmap (fun x => drop 184 x.2) (urun ufu_step (uf_new 4) (fib_history 45 ++ [UfJoin 2 3; UfJoin 2 0; UfSame 3 2; UfSize 2; UfJoin 3 2; UfSame 3 2; UfSize 2])) =
    Ok [Some (UfBool false); Some (UfNum 12200160415121876739); None; Some (UfBool true); Some (UfNum 12200160415121876739)].
Proof. split; [split; [cbn; repeat split; auto; lia|vm_compute; reflexivity]|vm_compute]. reflexivity. Qed.
