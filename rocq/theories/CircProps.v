(** Flows with lower bounds by get_max_flow (C130). *)
From Verif Require Import Prelude IntModel DinicModel DinicSpec DinicProof DinicProps FlowRelModel FlowRelSpec FlowRelProof CircModel CircSpec CircProof.
Open Scope Z_scope.

(** C130: the client decides whether there is a circulation that respects both bounds of every edge. *)
Theorem C130_circulation : forall T n ds, T ∈ prim_types -> Z.of_nat (n + 2) <= 2 ^ 31 - 1 -> bounds_ok T n ds -> low_sum ds <= it_max T ->
  exists b, circulates T n ds = Ok b /\ (b = true <-> exists fs, circulation ds fs).
Proof.
  intros T n ds HT Hn B Hl. destruct (circ_answer T n ds HT Hn B Hl) as (v & E & [(gs & G1 & G2) M] & _ & U). unfold circulates. rewrite E. cbn [mbind res_bind]. eexists. split; [reflexivity|]. rewrite Z.eqb_eq. split.
  - intros ->. apply (fill_circ T n ds Hn B gs G1 G2).
  - intros [fs C]. destruct (circ_fill T n ds Hn B fs C) as (gs' & G1' & G2'). specialize (M gs' G1'). lia.
Qed.
Print Assumptions C130_circulation.

(** Hoffman's theorem: if not, some set of vertices must receive more than may leave it. *)
Theorem C130_hoffman : forall T n ds, T ∈ prim_types -> Z.of_nat (n + 2) <= 2 ^ 31 - 1 -> bounds_ok T n ds -> low_sum ds <= it_max T ->
  (circulates T n ds = Ok false <-> exists X, upper_out ds X < lower_in ds X) /\
  ((exists fs, circulation ds fs) <-> forall X, lower_in ds X <= upper_out ds X).
Proof.
  intros T n ds HT Hn B Hl.
  assert (H : circulates T n ds = Ok false <-> exists X, upper_out ds X < lower_in ds X).
  { destruct (circ_answer T n ds HT Hn B Hl) as (v & E & _ & [(X & X1 & X2 & X3) M] & U). unfold circulates. rewrite E. cbn [mbind res_bind]. split.
    - intros Q. injection Q as Q. apply Z.eqb_neq in Q. exists X. rewrite (aux_cut n ds X X1 X2) in X3. lia.
    - intros [Y HY]. set (Y' := fun x => if (x <? n)%nat then Y x else (x =? n)%nat).
      assert (Y1 : Y' n = true) by (unfold Y'; rewrite Nat.ltb_irrefl; apply Nat.eqb_refl).
      assert (Y2 : Y' (S n) = false) by (unfold Y'; destruct (Nat.ltb_spec (S n) n); [lia|]; apply Nat.eqb_neq; lia).
      specialize (M Y' Y1 Y2). rewrite (aux_cut n ds Y' Y1 Y2) in M.
      assert (upper_out ds Y' = upper_out ds Y /\ lower_in ds Y' = lower_in ds Y) as [Q1 Q2].
      { clear -B. induction B as [|d ds (B1 & B2 & _) _ [I1 I2]]; [auto|]. cbn [upper_out lower_in]. rewrite I1, I2. unfold Y'. destruct (Nat.ltb_spec d.1.1 n); [|lia]. destruct (Nat.ltb_spec d.1.2 n); [|lia]. auto. }
      f_equal. apply Z.eqb_neq. lia. }
  split; [exact H|]. destruct (C130_circulation T n ds HT Hn B Hl) as (b & E & Hb). rewrite E in H. rewrite <- Hb. split.
  - intros -> X. destruct (Z_le_gt_dec (lower_in ds X) (upper_out ds X)); [assumption|]. destruct H as [_ H]. enough (Ok true = Ok false) by discriminate. apply H. exists X. lia.
  - intros A. destruct b; [reflexivity|]. destruct H as [H _]. destruct (H eq_refl) as [X HX]. specialize (A X). lia.
Qed.
Print Assumptions C130_hoffman.

(** With one more edge it decides whether a flow from s to t of at most m respects the bounds. *)
Theorem C130_flow : forall T n ds s t m, T ∈ prim_types -> Z.of_nat (n + 2) <= 2 ^ 31 - 1 -> bounds_ok T n ds -> low_sum ds <= it_max T -> (s < n)%nat -> (t < n)%nat -> 0 <= m <= it_max T ->
  exists b, flows T n ds s t m = Ok b /\ (b = true <-> exists fs v, 0 <= v <= m /\ st_flow ds s t fs v).
Proof.
  intros T n ds s t m HT Hn B Hl Hs Ht Hm. destruct (C130_circulation T n ((t, s, (0, m)) :: ds) HT Hn) as (b & E & Hb).
  - constructor; [cbn; split_and!; lia|exact B].
  - exact Hl.
  - exists b. split; [exact E|]. rewrite Hb. split.
    + intros (fs & W & C). inversion W as [|? v ? fs' Hv W']; subst. cbn in Hv. exists fs', v. split; [lia|]. split; [exact W'|]. intros x. specialize (C x). cbn [leaving entering fst snd] in C. destruct (s =? x)%nat, (t =? x)%nat; lia.
    + intros (fs & v & Hv & W & C). exists (v :: fs). split; [constructor; [cbn; lia|exact W]|]. intros x. specialize (C x). cbn [leaving entering fst snd]. destruct (s =? x)%nat, (t =? x)%nat; lia.
Qed.
Print Assumptions C130_flow.

(** A triangle that can carry 2 but not 4; a flow of at least 2 through a bottleneck of 1. *)
Example C130_nonvacuous : circulates i32 3 [(0%nat, 1%nat, (2, 5)); (1%nat, 2%nat, (1, 3)); (2%nat, 0%nat, (0, 2))] = Ok true /\ circulates i32 3 [(0%nat, 1%nat, (4, 5)); (1%nat, 2%nat, (1, 3)); (2%nat, 0%nat, (0, 2))] = Ok false /\
  flows i32 3 [(0%nat, 1%nat, (2, 4)); (1%nat, 2%nat, (0, 3))] 0 2 3 = Ok true /\ flows i32 3 [(0%nat, 1%nat, (2, 4)); (1%nat, 2%nat, (0, 1))] 0 2 3 = Ok false.
Proof. vm_compute. auto. Qed.
Close Scope Z_scope.
