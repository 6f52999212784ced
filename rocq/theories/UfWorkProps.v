(** C94: how many calls of `find` the union-find structure makes. *)
From stdpp Require Import relations.
From Verif Require Import Prelude ArraySpec Eff UnionFindModel UnionFindSpec UnionFindProof UnionFindProps UnionFindRefProps GraphWorkModel GraphWorkSpec AhoWorkSpec UfWorkModel UfWorkSpec UfWorkProof UfTightProof.

Lemma climbs_exists fa d i r : rootof fa d i r -> exists path, climbs fa i path r /\ length path = S d /\
  forall v, v ∈ path -> reach fa i v /\ exists d', d' <= d /\ rootof fa d' v r.
Proof.
  induction 1 as [i Hi|d i j r E Hne H (path & C & Hl & Hp)].
  - exists [i]. split; [cbn; auto|]. split; [reflexivity|]. intros v Hv. apply elem_of_list_singleton in Hv as ->.
    split; [constructor; eapply lookup_lt_Some; exact Hi|]. exists 0. split; [lia|constructor; exact Hi].
  - exists (i :: path). split; [|split; [cbn; lia|]].
    + destruct path as [|p path]; [contradiction|]. assert (p = j) as -> by (apply C). cbn [climbs]. auto.
    + intros v Hv. apply elem_of_cons in Hv as [->|Hv].
      * split; [constructor; eapply lookup_lt_Some; exact E|]. exists (S d). split; [lia|econstructor; eassumption].
      * destruct (Hp v Hv) as (R & d' & Hd & R'). split; [econstructor; eassumption|]. exists d'. split; [lia|exact R'].
Qed.
Lemma climbs_nodup fa path : forall d i r, rootof fa d i r -> climbs fa i path r -> NoDup path.
Proof.
  induction path as [|v path IH]; intros d i r H C; [constructor|]. destruct C as [-> C]. destruct path as [|p path]; [apply NoDup_singleton|].
  destruct C as (E & Hne & C). inversion H as [i' Hi'|d1 j1 i1 r1 E1 Hne1 Hr1]; subst; [congruence|]. assert (i1 = p) as -> by congruence.
  constructor; [|apply (IH d1 p r Hr1 C)]. intros Hi. destruct (climbs_exists _ _ _ _ Hr1) as (path' & C' & _ & Hp).
  assert (forall p1 p2 i, climbs fa i p1 r -> climbs fa i p2 r -> p1 = p2) as HU.
  { clear. induction p1 as [|a p1 IH]; intros p2 i C1 C2; [contradiction|]. destruct p2 as [|b p2]; [contradiction|]. destruct C1 as [-> C1], C2 as [-> C2]. f_equal.
    destruct p1 as [|a p1], p2 as [|b p2]; [reflexivity| | |].
    - destruct C1 as [-> C1], C2 as (C2 & C3 & _). congruence.
    - destruct C2 as [-> C2], C1 as (C1 & C3 & _). congruence.
    - destruct C1 as (E1 & _ & C1), C2 as (E2 & _ & C2). assert (a = b) as -> by congruence. apply (IH _ b); assumption. }
  rewrite (HU _ _ _ C C') in Hi. destruct (Hp _ Hi) as (_ & d' & Hd & R'). destruct (rootof_det _ _ _ _ R' _ _ H). lia.
Qed.

(** C94, find: after any history, find(i) makes one call per vertex on the way from i to the representative, at most n of them; afterwards find of any
    of these vertices makes at most two and changes nothing. *)
Theorem C94_find : forall n ops u i, uf_reached n ops u -> i < n ->
  exists path r u', climbs (uf_fa u) i path r /\ NoDup path /\ length path <= n /\ uf_find u i = Ok (u', r) /\
    costs (uf_findW u i) (uf_find u i) (fun _ => length path) /\
    forall j, j ∈ path -> exists k, k <= 2 /\ uf_find u' j = Ok (u', r) /\ costs (uf_findW u' j) (uf_find u' j) (fun _ => k).
Proof.
  intros n ops u i HR Hi. pose proof (reached_inv _ _ _ HR) as I. destruct (find_calls n u i I Hi) as (d & r & u' & Rd & E & W & I' & Sr & On & _ & _ & _ & _ & Hn & _).
  destruct (climbs_exists _ _ _ _ Rd) as (path & C & Hl & Hp). exists path, r, u'. split; [exact C|]. split; [apply (climbs_nodup _ _ _ _ _ Rd C)|]. split; [lia|]. split; [exact E|].
  split; [intros w; rewrite (W w), E, Hl; reflexivity|]. intros j Hj. destruct (Hp j Hj) as (R & _). specialize (On j R).
  assert (uf_fa u' !! r = Some r) as Er by (destruct Sr as [_ Sr]; destruct (Sr i r) as [d' Hd']; [exists d; exact Rd|]; apply (rootof_root _ _ _ _ Hd')).
  assert (exists k, k <= 2 /\ uf_find u' j = Ok (u', r) /\ forall w, uf_findW u' j w = Ok ((u', r), w + k)) as (k & Hk & Ek & Wk); [|exists k; split; [exact Hk|]; split; [exact Ek|]; intros w; rewrite (Wk w), Ek; reflexivity].
  assert (j < length (uf_fa u')) as Hjl by (eapply lookup_lt_Some; exact On).
  unfold uf_find, uf_findW. destruct u' as [un fa sz]. cbn [uf_fa uf_n uf_sz] in *. destruct (length fa) as [|m] eqn:Lm; [lia|]. cbn [uf_find_fa uf_find_faW].
  unfold ebind, tick, elift, eret. rewrite (vget_ok _ _ _ On). cbn [mbind res_bind]. destruct (Nat.eqb_spec r j) as [->|Hne].
  - exists 1. split; [lia|]. split; reflexivity.
  - exists 2. split; [lia|]. rewrite (vget_ok _ _ _ Er). cbn [mbind res_bind]. rewrite Nat.eqb_refl. cbn [mbind res_bind]. rewrite vset_ok by lia. cbn [mbind res_bind].
    rewrite list_insert_id by exact On. rewrite (vget_ok _ _ _ On). cbn [mbind res_bind]. split; [reflexivity|]. intros w. f_equal. f_equal. lia.
Qed.
Print Assumptions C94_find.

(** C94, groups: at most three calls per vertex, after any history. *)
Theorem C94_groups : forall n ops u, uf_reached n ops u -> within (uf_groupsW u) (uf_groups u) (3 * n).
Proof.
  intros n ops u HR. pose proof (reached_inv _ _ _ HR) as I. apply pays_within. destruct (groups_pays n u 0 I) as [P _]. eapply spends_weak; [exact P| |intros; apply Nat.le_refl].
  pose proof (deep_max n (uf_fa u)) as D. rewrite (ui_fa _ _ I) in D. lia.
Qed.
Print Assumptions C94_groups.

(** C94, any history on n vertices: find, size, is_same and join make O(log n) calls on average, groups 3n; the answers are those of the program
    without the counter. *)
Theorem C94_total : forall n ops, within (erun uf_stepW (uf_new n) ops) (run uf_step (uf_new n) ops) (sum_list_with (uf_allowance n) ops).
Proof. exact total. Qed.
Print Assumptions C94_total.

(** C94, a single find may need a call for every vertex: k joins of representatives make a path of k + 1 vertices. *)
Theorem C94_find_linear : forall k, (Z.of_nat (S k) < 2 ^ 64)%Z -> joins_of_reps (seq 0 (S k)) (chain_joins k) /\
  exists u outs, run uf_step (uf_new (S k)) (chain_joins k) = Ok (u, outs) /\ costs (uf_findW u 0) (uf_find u 0) (fun _ => S k).
Proof.
  intros k Hk. destruct (chain_plays (S k) Hk k ltac:(lia)) as (u & lab & P & G & H1 & H2). apply plays_run in P as (J & outs & R & _). split; [exact J|]. exists u, outs. split; [exact R|].
  pose proof (chain_depth (uf_fa u) k H1 (H2 k ltac:(lia) ltac:(lia)) k ltac:(lia)) as Rd. rewrite Nat.sub_diag in Rd.
  destruct (find_calls (S k) u 0 (lb_inv _ _ _ (proj1 G)) ltac:(lia)) as (d & r & u' & Rd' & E & W & _). destruct (rootof_det _ _ _ _ Rd _ _ Rd') as [<- <-].
  intros w. rewrite (W w), E. reflexivity.
Qed.
Print Assumptions C94_find_linear.

(** C94, the logarithm is needed: on 2^k + m vertices a history of 2^k - 1 joins, then m joins and m finds, all joins of representatives, makes k + 2 calls
    in each of these m finds. *)
Theorem C94_logarithm_needed : forall k m, (Z.of_nat (2 ^ k + m) < 2 ^ 64)%Z ->
  exists ops u outs c, joins_of_reps (seq 0 (2 ^ k + m)) ops /\ length ops + 1 = 2 ^ k + 2 * m /\
    run uf_step (uf_new (2 ^ k + m)) ops = Ok (u, outs) /\ erun uf_stepW (uf_new (2 ^ k + m)) ops 0 = Ok ((u, outs), c) /\ m * (k + 2) <= c.
Proof.
  intros k m Hn. set (n := 2 ^ k + m) in *. destruct (build_plays n Hn k 0 (uf_new n) (seq 0 n) (good_new n)) as (c & u1 & lab1 & P1 & G1 & S1 & T1 & O1).
  { unfold n. lia. }
  { intros v _ Hv. cbn. apply lookup_seq_lt. unfold n. lia. }
  destruct (rounds_plays n Hn k m (bt k 0) (2 ^ k) u1 lab1 G1 (bt_shaped k 0)) as (u2 & lab2 & P2).
  - rewrite bt_labels. apply NoDup_seq.
  - intros v Hv. rewrite bt_labels in Hv. apply elem_of_seq in Hv. lia.
  - exact S1.
  - exact T1.
  - intros v Hv1 Hv2. rewrite O1 by lia. cbn. apply lookup_seq_lt. exact Hv2.
  - unfold n. lia.
  - pose proof (plays_app _ _ _ _ _ _ _ _ _ _ P1 P2) as P. apply plays_run in P as (J & outs & R & W). eexists _, u2, outs, _. split; [exact J|]. split.
    + rewrite app_length, rounds_len. pose proof (build_len k 0). lia.
    + split; [exact R|]. split; [apply W|]. nia.
Qed.
Print Assumptions C94_logarithm_needed.

(** Non-vacuity: a path of 5 vertices; the first find makes 5 calls, the second 2; groups then 9; a history with a failing call panics in both programs. *)
Example C94_nonvacuous :
  (exists u outs, run uf_step (uf_new 5) (chain_joins 4) = Ok (u, outs) /\
    fmap snd (uf_findW u 0 0) = Ok 5 /\ exists u', uf_find u 0 = Ok (u', 4) /\ fmap snd (uf_findW u' 1 0) = Ok 2 /\ fmap snd (uf_groupsW u' 0) = Ok 9 /\ fmap snd (uf_groupsW u 0) = Ok 12) /\
  fmap snd (erun uf_stepW (uf_new 5) (chain_joins 4 ++ [UfFind 0; UfGroups]) 0) = Ok (8 + 5 + 9) /\
  sum_list_with (uf_allowance 5) (chain_joins 4 ++ [UfFind 0; UfGroups]) = 4 * 12 + 4 + 15 /\
  erun uf_stepW (uf_new 5) [UfJoin 0 1; UfSize 5] 0 = Panic.
Proof.
  split; [|split; [vm_compute; reflexivity|split; [vm_compute; reflexivity|vm_compute; reflexivity]]].
  eexists _, _. split; [vm_compute; reflexivity|]. split; [vm_compute; reflexivity|]. eexists. split; [vm_compute; reflexivity|]. split; [vm_compute; reflexivity|]. split; vm_compute; reflexivity.
Qed.
