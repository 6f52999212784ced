From stdpp Require Import relations.
From Verif Require Import Prelude Eff EffSpec HeapModel BinHeapModel BinHeapProof BinHeapWorkModel BinHeapWorkSpec.

(** ** Logarithms *)
Lemma log2_half x : 2 <= x -> S (Nat.log2 (x / 2)) <= Nat.log2 x.
Proof.
  intros H. assert (H2 : x / 2 >= 1) by (apply Nat.div_le_lower_bound; lia). rewrite <- Nat.log2_double by lia. apply Nat.log2_le_mono. apply Nat.mul_div_le. lia.
Qed.
Lemma log2_parent pos : 0 < pos -> S (Nat.log2 (par pos + 1)) <= Nat.log2 (pos + 1).
Proof.
  intros H. unfold par. replace ((pos - 1) / 2 + 1) with ((pos + 1) / 2); [apply log2_half; lia|]. replace (pos + 1) with (pos - 1 + 1 * 2) by lia. rewrite Nat.div_add by lia. reflexivity.
Qed.
Lemma log2_child last pos c : 2 * pos + 2 <= last -> c = 2 * pos + 1 \/ c = 2 * pos + 2 -> S (Nat.log2 (last / (c + 1))) <= Nat.log2 (last / (pos + 1)).
Proof.
  intros H Hc. transitivity (S (Nat.log2 (last / (pos + 1) / 2))).
  - apply le_n_S, Nat.log2_le_mono. rewrite Nat.div_div by lia. apply Nat.div_le_compat_l. lia.
  - apply log2_half. apply Nat.div_le_lower_bound; lia.
Qed.
(** The heights of the nodes of a heap add up to less than its size. *)
Definition heights (n : nat) : nat := sum_list_with (fun i => Nat.log2 (n / (i + 1))) (seq 0 (n / 2)).
Lemma sum_ext {X} (f g : X -> nat) l : (forall x, x ∈ l -> f x = g x) -> sum_list_with f l = sum_list_with g l.
Proof. induction l as [|x l IH]; intros H; [reflexivity|]. cbn. rewrite (H x) by left. rewrite IH; [reflexivity|]. intros y Hy. apply H. right. exact Hy. Qed.
Lemma sum_zero {X} (f : X -> nat) l : (forall x, x ∈ l -> f x = 0) -> sum_list_with f l = 0.
Proof. induction l as [|x l IH]; intros H; [reflexivity|]. cbn. rewrite (H x) by left. rewrite IH; [reflexivity|]. intros y Hy. apply H. right. exact Hy. Qed.
Lemma sum_succ {X} (f : X -> nat) l : sum_list_with (fun x => S (f x)) l = length l + sum_list_with f l.
Proof. induction l as [|x l IH]; [reflexivity|]. cbn. rewrite IH. lia. Qed.
Lemma sum_le {X} (f : X -> nat) k l : (forall x, x ∈ l -> f x <= k) -> sum_list_with f l <= length l * k.
Proof. induction l as [|x l IH]; intros H; [cbn; lia|]. cbn [sum_list_with length]. specialize (IH (fun y Hy => H y (elem_of_list_further _ _ _ Hy))). specialize (H x (elem_of_list_here _ _)). lia. Qed.
Lemma sum_mul {X} (f : X -> nat) k l : sum_list_with (fun x => k * f x) l = k * sum_list_with f l.
Proof. induction l as [|x l IH]; cbn; [lia|]. rewrite IH. lia. Qed.
Lemma sum_rev {X} (f : X -> nat) l : sum_list_with f (rev l) = sum_list_with f l.
Proof. induction l as [|x l IH]; [reflexivity|]. cbn. rewrite sum_list_with_app, IH. cbn. lia. Qed.
Lemma heights_ok n : heights n <= n - 1.
Proof.
  induction n as [n IH] using lt_wf_ind. destruct (Nat.lt_ge_cases n 2) as [Hn|Hn]; [unfold heights; rewrite Nat.div_small by lia; cbn; lia|].
  assert (H1 : n / 2 >= 1) by (apply Nat.div_le_lower_bound; lia). assert (H2 : 2 * (n / 2) <= n) by (apply Nat.mul_div_le; lia).
  assert (E : heights n = n / 2 + sum_list_with (fun i => Nat.log2 (n / 2 / (i + 1))) (seq 0 (n / 2))).
  { unfold heights. rewrite <- (seq_length (n / 2) 0) at 2. rewrite <- sum_succ. apply sum_ext. intros i Hi. apply elem_of_seq in Hi.
    assert (Hq : n / (i + 1) >= 2) by (apply Nat.div_le_lower_bound; lia). rewrite Nat.div_div by lia. rewrite (Nat.mul_comm 2), <- Nat.div_div by lia.
    assert (Hh : n / (i + 1) / 2 >= 1) by (apply Nat.div_le_lower_bound; lia). pose proof (Nat.div_mod_eq (n / (i + 1)) 2). pose proof (Nat.mod_upper_bound (n / (i + 1)) 2 ltac:(lia)).
    destruct (Nat.eq_dec ((n / (i + 1)) mod 2) 0) as [E0|E0]; [replace (n / (i + 1)) with (2 * (n / (i + 1) / 2)) at 1 by lia; apply Nat.log2_double; lia|].
    replace (n / (i + 1)) with (2 * (n / (i + 1) / 2) + 1) at 1 by lia. apply Nat.log2_succ_double. lia. }
  rewrite E. assert (F : sum_list_with (fun i => Nat.log2 (n / 2 / (i + 1))) (seq 0 (n / 2)) = heights (n / 2)).
  { unfold heights. assert (Hle : n / 2 / 2 <= n / 2) by (apply Nat.div_le_upper_bound; lia). assert (Es : seq 0 (n / 2) = seq 0 (n / 2 / 2) ++ seq (0 + n / 2 / 2) (n / 2 - n / 2 / 2)) by (rewrite <- seq_app; f_equal; lia). rewrite Es, sum_list_with_app, (sum_zero _ (seq (0 + _) _)); [lia|].
    intros i Hi. apply elem_of_seq in Hi. apply Nat.log2_null. apply Nat.lt_succ_r. apply Nat.div_lt_upper_bound; [lia|]. pose proof (Nat.div_mod_eq (n / 2) 2). pose proof (Nat.mod_upper_bound (n / 2) 2 ltac:(lia)). lia. }
  rewrite F. specialize (IH (n / 2) ltac:(lia)). lia.
Qed.

Section Work.
  Context {W A : Type} (R : relation W) (cmp : A -> A -> comparison) (cmpE : A -> A -> eff W comparison) (HE : forall a, acts R (cmp a) (cmpE a)).
  Lemma cmp_spends a b : spends R 1 (fun _ => 0) (cmpE a b) (Ok (cmp a b)).
  Proof. intros w. destruct (HE a b w) as (w' & E & H). exists w', 1. split; [exact E|]. split; [apply nsteps_once; exact H|lia]. Qed.
  (** A question, then the rest. *)
  Lemma ask {X} c c' (q : X -> nat) a b (h : comparison -> bool) (f : bool -> eff W X) r : 1 + c' <= c -> spends R c' q (f (h (cmp a b))) r ->
    spends R c q (ebind (ebind (cmpE a b) (fun o => eret (h o))) f) r.
  Proof.
    intros Hc H w. destruct (HE a b w) as (w1 & E & H1). unfold ebind. rewrite E. cbn [mbind res_bind eret]. specialize (H w1). destruct r as [x| |]; [|exact H|exact H].
    destruct H as (w' & k & E' & N & L). exists w', (S k). split; [exact E'|]. split; [econstructor; eassumption|lia].
  Qed.
  Lemma ask_le {X} c c' (q : X -> nat) a b (f : bool -> eff W X) r : 1 + c' <= c -> spends R c' q (f (c_le cmp a b)) r -> spends R c q (ebind (le_e cmpE a b) f) r.
  Proof. apply (ask c c' q a b (fun o => match o with Gt => false | _ => true end)). Qed.
  Lemma ask_ge {X} c c' (q : X -> nat) a b (f : bool -> eff W X) r : 1 + c' <= c -> spends R c' q (f (c_ge cmp a b)) r -> spends R c q (ebind (ge_e cmpE a b) f) r.
  Proof. apply (ask c c' q a b (fun o => match o with Lt => false | _ => true end)). Qed.
  Lemma ask_lt {X} c c' (q : X -> nat) a b (f : bool -> eff W X) r : 1 + c' <= c -> spends R c' q (f (c_lt cmp a b)) r -> spends R c q (ebind (lt_e cmpE a b) f) r.
  Proof. apply (ask c c' q a b (fun o => match o with Lt => true | _ => false end)). Qed.
  Lemma spends_for_inv {X S} (I : S -> Prop) (f : X -> nat) (body : X -> S -> eff W S) bodyr : forall xs s,
    (forall x s, x ∈ xs -> I s -> spends R (f x) (fun _ => 0) (body x s) (bodyr x s) /\ forall s', bodyr x s = Ok s' -> I s') -> I s ->
    spends R (sum_list_with f xs) (fun _ => 0) (efor xs body s) (rfor xs bodyr s).
  Proof.
    induction xs as [|x xs IH]; intros s H Hs; cbn [efor rfor sum_list_with]; [apply spends_ret; lia|]. destruct (H x s (elem_of_list_here _ _) Hs) as [H1 H2].
    eapply spends_part_bind; [exact H1|reflexivity|]. intros s' E. apply IH; [|apply H2; exact E]. intros y s0 Hy. apply H. right. exact Hy.
  Qed.

  Lemma sift_up_spends data pos : spends R (Nat.log2 (pos + 1)) (fun _ => 0) (sift_up_e cmpE data pos) (sift_up cmp data pos).
  Proof.
    unfold sift_up_e, sift_up. apply spends_lift_bind. intros elt _.
    apply (spends_loop R (fun _ => True) (fun s : list A * nat => Nat.log2 (s.2 + 1)) (fun _ => 0)); [|auto|exact I]. intros [d p] _. cbn [fst snd].
    destruct (Nat.ltb_spec 0 p) as [Hp|Hp].
    - apply spends_lift_bind. intros x _. pose proof (log2_parent p Hp) as Hl. unfold par in Hl. apply (ask_le _ (Nat.log2 ((p - 1) / 2 + 1))); [lia|].
      destruct (c_le cmp elt x); apply spends_lift_bind; intros d' _; apply spends_ret; cbn [snd]; lia.
    - apply spends_lift_bind. intros d' _. apply spends_ret. lia.
  Qed.
  Lemma sift_down_spends data pos last : spends R (2 * Nat.log2 (last / (pos + 1))) (fun _ => 0) (sift_down_range_e cmpE data pos last) (sift_down_range cmp data pos last).
  Proof.
    unfold sift_down_range_e, sift_down_range. apply spends_lift_bind. intros elt _.
    apply (spends_loop R (fun _ => True) (fun s : list A * nat => 2 * Nat.log2 (last / (s.2 + 1))) (fun _ => 0)); [|auto|exact I]. intros [d p] _. cbn [fst snd].
    destruct (Nat.leb_spec (2 * p + 1) (last - 2)) as [Hp|Hp].
    - apply spends_lift_bind. intros a _. apply spends_lift_bind. intros b _. set (c := 2 * Nat.log2 (last / (p + 1))).
      assert (Hc : forall t : bool, 2 + 2 * Nat.log2 (last / ((if t then 2 * p + 1 + 1 else 2 * p + 1) + 1)) <= c).
      { intros t. unfold c. pose proof (log2_child last p (if t then 2 * p + 1 + 1 else 2 * p + 1) ltac:(lia) ltac:(destruct t; lia)). lia. }
      clearbody c. assert (C2 : 2 <= c) by (etransitivity; [apply Nat.le_add_r|exact (Hc true)]). apply (ask_le _ (c - 1)); [lia|]. specialize (Hc (c_le cmp a b)). cbn zeta. set (child := if c_le cmp a b then _ else _) in *. clearbody child. apply spends_lift_bind. intros x _.
      apply (ask_ge _ (c - 2)); [lia|]. destruct (c_ge cmp elt x); apply spends_lift_bind; intros d' _; apply spends_ret; cbn [snd]; lia.
    - destruct (Nat.eqb_spec (2 * p + 1) (last - 1)) as [Hl|Hl]; [|apply spends_lift_bind; intros d' _; apply spends_ret; lia].
      pose proof (log2_child last p (2 * p + 1) ltac:(lia) ltac:(lia)) as H. apply spends_lift_bind. intros x _. apply (ask_lt _ 0); [lia|].
      destruct (c_lt cmp elt x); [|apply spends_lift_bind; intros d' _; apply spends_ret; lia]. apply spends_lift_bind. intros d' _. apply spends_lift_bind. intros d2 _. apply spends_ret. lia.
  Qed.
  Lemma sift_bottom_spends data : spends R (2 * Nat.log2 (length data)) (fun _ => 0) (sift_down_to_bottom_e cmpE data) (sift_down_to_bottom cmp data).
  Proof.
    unfold sift_down_to_bottom_e, sift_down_to_bottom. set (last := length data). apply spends_lift_bind. intros elt E0. assert (Hn : 0 < last) by (unfold last; destruct data; [discriminate E0|cbn; lia]).
    apply (spends_bind R _ (fun r : list A * nat => Nat.log2 (r.2 + 1))).
    - replace (2 * Nat.log2 last) with (Nat.log2 (last / (0 + 1)) + Nat.log2 last) by (rewrite Nat.div_1_r; lia).
      apply (spends_loop R (fun s : list A * nat => s.2 < last) (fun s : list A * nat => Nat.log2 (last / (s.2 + 1)) + Nat.log2 last)); [| |exact Hn].
      + intros [d p] Hp. cbn [fst snd] in *. destruct (Nat.leb_spec (2 * p + 1) (last - 2)) as [Hc|Hc].
        * apply spends_lift_bind. intros a _. apply spends_lift_bind. intros b _.
          pose proof (log2_child last p (if c_le cmp a b then 2 * p + 1 + 1 else 2 * p + 1) ltac:(lia) ltac:(destruct (c_le cmp a b); lia)) as Hl.
          apply (ask_le _ (Nat.log2 (last / ((if c_le cmp a b then 2 * p + 1 + 1 else 2 * p + 1) + 1)) + Nat.log2 last)); [lia|]. cbn zeta. apply spends_lift_bind. intros x _.
          apply spends_lift_bind. intros d' _. apply spends_ret. cbn [snd]. lia.
        * destruct (Nat.eqb_spec (2 * p + 1) (last - 1)) as [Hl|Hl].
          -- apply spends_lift_bind. intros x _. apply spends_lift_bind. intros d' _. apply spends_ret. cbn [snd]. pose proof (Nat.log2_le_mono (2 * p + 1 + 1) last ltac:(lia)). lia.
          -- apply spends_ret. cbn [snd]. pose proof (Nat.log2_le_mono (p + 1) last ltac:(lia)). lia.
      + intros [d p] [d' p'] Hp. cbn [fst snd] in *. destruct (Nat.leb_spec (2 * p + 1) (last - 2)) as [Hc|Hc].
        * destruct (vget d (2 * p + 1)) as [a| |]; cbn [mbind res_bind]; try discriminate. destruct (vget d (2 * p + 1 + 1)) as [b| |]; cbn [mbind res_bind]; try discriminate.
          destruct (vget d _) as [x| |]; cbn [mbind res_bind]; try discriminate. destruct (vset d p x); cbn [mbind res_bind]; try discriminate. intros [= <- <-]. destruct (c_le cmp a b); lia.
        * destruct (2 * p + 1 =? last - 1); [|discriminate]. destruct (vget d (2 * p + 1)) as [a| |]; cbn [mbind res_bind]; try discriminate. destruct (vset d p a); discriminate.
    - intros [d p] _. cbn [fst snd]. apply spends_lift_bind. intros d' _. apply sift_up_spends.
  Qed.
  Lemma push_spends data x : spends R (Nat.log2 (length data + 1)) (fun _ => 0) (push_e cmpE data x) (bin_push cmp data x).
  Proof. apply sift_up_spends. Qed.
  Lemma pop_spends data : spends R (2 * Nat.log2 (length data - 1)) (fun _ => 0) (pop_e cmpE data) (bin_pop cmp data).
  Proof.
    unfold pop_e, bin_pop. destruct (rev data) as [|item r] eqn:E; [apply spends_ret; lia|]. assert (El : length data = S (length r)) by (rewrite <- (rev_length data), E; reflexivity).
    destruct (rev r) as [|top rest] eqn:E2; [apply spends_ret; lia|]. assert (El2 : length r = S (length rest)) by (rewrite <- (rev_length r), E2; reflexivity).
    eapply spends_part_bind; [apply sift_bottom_spends| |]; [|intros d _; apply (spends_ret R 0); lia]. cbn [length]. replace (length data - 1) with (S (length rest)) by lia. lia.
  Qed.
  Lemma rebuild_spends data : spends R (2 * (length data - 1)) (fun _ => 0) (rebuild_e cmpE data) (bin_rebuild cmp data).
  Proof.
    unfold rebuild_e, bin_rebuild. set (n := length data). apply (spends_weak R (sum_list_with (fun i => 2 * Nat.log2 (n / (i + 1))) (rev (seq 0 (n / 2)))) _ (fun _ => 0)).
    - apply (spends_for_inv (fun d => length d = n)); [|reflexivity]. intros i d Hi Hd. rewrite Hd. split; [apply sift_down_spends|]. intros d' E.
      apply elem_of_list_In, in_rev, elem_of_list_In, elem_of_seq in Hi. assert (Hn : n / 2 <= n) by (apply Nat.div_le_upper_bound; lia).
      destruct (sift_down_ok cmp n d i ltac:(lia)) as (l & E' & P & _). rewrite E in E'. injection E' as ->. rewrite (Permutation_length P). exact Hd.
    - rewrite sum_rev, sum_mul. pose proof (heights_ok n) as H. unfold heights in H. lia.
    - intros a _. lia.
  Qed.
  Lemma rebuild_tail_spends data start : start <= length data -> spends R (Nat.max (2 * length data) ((length data - start) * Nat.log2 (length data))) (fun _ => 0) (rebuild_tail_e cmpE data start) (bin_rebuild_tail cmp data start).
  Proof.
    intros Hs. unfold rebuild_tail_e, bin_rebuild_tail. destruct (start =? length data); [apply spends_ret; lia|].
    destruct (if start <? length data - start then true else _); [eapply spends_weak; [apply rebuild_spends|lia|auto]|].
    apply (spends_for R _ (Nat.log2 (length data))); [|unfold range; rewrite seq_length; lia]. intros i d Hi. unfold range in Hi. apply elem_of_seq in Hi.
    eapply spends_weak; [apply sift_up_spends|apply Nat.log2_le_mono; lia|auto].
  Qed.
  Lemma append_spends data other : spends R (Nat.max (2 * (length data + length other)) (Nat.min (length data) (length other) * Nat.log2 (length data + length other))) (fun _ => 0)
    (append_e cmpE data other) (bin_append cmp data other).
  Proof.
    unfold append_e, bin_append. destruct (Nat.ltb_spec (length data) (length other)) as [H|H]; (eapply (spends_part_bind R); [apply rebuild_tail_spends; rewrite app_length; lia| |intros d _; apply (spends_ret R 0); lia]); rewrite app_length.
    - rewrite Nat.add_0_r, (Nat.add_comm (length other)), Nat.min_l by lia. replace (length data + length other - length other) with (length data) by lia. lia.
    - rewrite Nat.add_0_r, Nat.min_r by lia. replace (length data + length other - length data) with (length other) by lia. lia.
  Qed.
  Lemma sorted_spends data : spends R ((length data - 1) * (2 * Nat.log2 (length data - 1))) (fun _ => 0) (into_sorted_vec_e cmpE data) (bin_into_sorted_vec cmp data).
  Proof.
    unfold into_sorted_vec_e, bin_into_sorted_vec. apply (spends_for R _ (2 * Nat.log2 (length data - 1))); [|unfold range; rewrite rev_length, seq_length; lia]. intros last d Hi.
    apply elem_of_list_In, in_rev, elem_of_list_In in Hi. unfold range in Hi. apply elem_of_seq in Hi.
    apply spends_lift_bind. intros a _. apply spends_lift_bind. intros b _. apply spends_lift_bind. intros d1 _. apply spends_lift_bind. intros d2 _.
    eapply spends_weak; [apply sift_down_spends| |auto]. rewrite Nat.div_1_r. pose proof (Nat.log2_le_mono last (length data - 1) ltac:(lia)). lia.
  Qed.
End Work.
