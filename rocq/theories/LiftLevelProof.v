From Verif Require Import Prelude UtilModel TreeSpec TreeProof LiftModel LiftProof LiftLevelModel TreeMetricSpec TreeMetricProof.

Section level.
  Context (g : list (list nat)) (root : nat) (par dep : nat -> nat) (Ht : rtree g root par dep).
  Context (level : nat) (Hlev : 1 <= level) (Hpow : length g < 2 ^ level) (b : bl) (B : built g par dep level b).
  Notation n := (length g).
  Notation up := (up par).
  Notation anc := (anc par).
  Lemma up_anc_iff u v l k : u < n -> v < n -> lcap par u v l -> k <= dep u -> anc (up k u) v <-> dep u - dep l <= k.
  Proof.
    intros Hu Hv (L1 & L2 & L3) Hk. assert (Hl : l < n) by exact (anc_lt _ _ _ _ Ht l u Hu L1). pose proof (anc_dep _ _ _ _ Ht l u Hu L1) as Hd. assert (Hw : up k u < n) by (apply (up_lt _ _ _ _ Ht); exact Hu). split.
    - intros A. specialize (L3 _ (anc_up par k u) A). apply (anc_dep _ _ _ _ Ht) in L3; [|exact Hl]. rewrite (dep_up _ _ _ _ Ht k u Hu) in L3. lia.
    - intros Hle. destruct (anc_bound _ _ _ _ Ht l u Hu L1) as (j & J1 & J2 & J3). apply (anc_trans par _ l); [|exact L2]. exists (k - j). rewrite <- J2, <- up_add. f_equal. lia.
  Qed.
  Lemma pa_end v i : v < n -> level <= i -> pa_get (bl_pa b) v i = Panic.
  Proof. intros Hv Hi. destruct (b_pa _ _ _ _ _ B v Hv) as (row & R1 & _). unfold pa_get. rewrite (vget_ok _ _ _ R1). cbn [mbind res_bind]. apply vget_panic. rewrite (w_row _ _ _ (b_wf _ _ _ _ _ B) v row R1). exact Hi. Qed.

  Lemma lca_level k u v l : u < n -> v < n -> lcap par u v l -> ~ anc v u -> k <= level -> bl_lca (set_level b k) u v = Ok (up (Nat.min (2 ^ k) (dep u - dep l)) u).
  Proof.
    intros Hu Hv L Hvu Hk. unfold bl_lca. change (bl_is_ancestor (set_level b k)) with (bl_is_ancestor b). cbn [set_level bl_level bl_pa].
    pose proof L as (L1 & L2 & L3). pose proof (anc_dep _ _ _ _ Ht l u Hu L1) as Hd.
    destruct (is_anc_ok g par dep level Hlev Hpow b B u v Hu Hv) as (r1 & -> & R1). cbn [mbind res_bind]. destruct r1.
    { pose proof (proj1 R1 eq_refl) as A. assert (l = u) as -> by (apply (anc_dep_eq _ _ _ _ Ht); try assumption; apply (anc_dep _ _ _ _ Ht); [exact (anc_lt _ _ _ _ Ht l u Hu L1)|apply L3; [apply anc_refl|exact A]]).
      rewrite Nat.sub_diag, Nat.min_0_r. reflexivity. }
    assert (Huv : ~ anc u v) by (intros A; apply R1 in A; discriminate). clear R1.
    destruct (is_anc_ok g par dep level Hlev Hpow b B v u Hv Hu) as (r2 & -> & R2). cbn [mbind res_bind]. destruct r2; [exfalso; apply Hvu, R2; reflexivity|]. clear R2.
    assert (HD : 1 <= dep u - dep l). { destruct (decide (1 <= dep u - dep l)) as [|Hn]; [assumption|]. exfalso. apply Huv. assert (l = u) as -> by (apply (anc_dep_eq _ _ _ _ Ht); [assumption..|lia]). exact L2. }
    unfold range.
    destruct (rfor_rev_range_inv (fun i x => exists j, x = up j u /\ j < dep u - dep l /\ j + 2 ^ i <= 2 ^ k /\ (dep u - dep l <= j + 2 ^ i \/ j + 2 ^ i = 2 ^ k)) 0 k
      (fun i u => x ← pa_get (bl_pa b) u i; a ← bl_is_ancestor b x v; if a : bool then Ok u else Ok x) u) as (x & E & j & -> & J1 & J2 & J3).
    - lia.
    - exists 0. split; [reflexivity|]. lia.
    - intros i x Hi (j & -> & J1 & J2 & J3). assert (Hx : up j u < n) by (apply (up_lt _ _ _ _ Ht); exact Hu). rewrite (good_pa_get par level _ _ i) by (try lia; apply (b_pa _ _ _ _ _ B); exact Hx). cbn [mbind res_bind].
      rewrite <- up_add. rewrite (Nat.add_comm (2 ^ i) j). assert (Hy : up (j + 2 ^ i) u < n) by (apply (up_lt _ _ _ _ Ht); exact Hu). rewrite Nat.add_1_r, Nat.pow_succ_r' in J2, J3.
      destruct (is_anc_ok g par dep level Hlev Hpow b B (up (j + 2 ^ i) u) v Hy Hv) as (r & -> & R). cbn [mbind res_bind].
      assert (RI : r = true <-> dep u - dep l <= j + 2 ^ i).
      { rewrite R. destruct (decide (j + 2 ^ i <= dep u)) as [Hle|Hgt]; [apply (up_anc_iff u v l); assumption|]. split; [lia|]. intros _. rewrite (up_high _ _ _ _ Ht) by (try exact Hu; lia). apply (anc_root _ _ _ _ Ht). exact Hv. }
      destruct r.
      + eexists. split; [reflexivity|]. exists j. split; [reflexivity|]. pose proof (proj1 RI eq_refl). lia.
      + eexists. split; [reflexivity|]. exists (j + 2 ^ i). split; [reflexivity|]. assert (~ dep u - dep l <= j + 2 ^ i) by (intros F; apply RI in F; discriminate). lia.
    - rewrite E. cbn [mbind res_bind]. assert (Hx : up j u < n) by (apply (up_lt _ _ _ _ Ht); exact Hu). rewrite (good_pa_get par level _ _ 0) by (try lia; apply (b_pa _ _ _ _ _ B); exact Hx).
      rewrite <- up_add. change (2 ^ 0) with 1 in *. replace (Nat.min (2 ^ k) (dep u - dep l)) with (1 + j) by lia. reflexivity.
  Qed.
  Lemma lca_level_anc k u v : u < n -> v < n -> anc v u -> bl_lca (set_level b k) u v = Ok v.
  Proof.
    intros Hu Hv A. unfold bl_lca. change (bl_is_ancestor (set_level b k)) with (bl_is_ancestor b). destruct (is_anc_ok g par dep level Hlev Hpow b B u v Hu Hv) as (r1 & -> & R1). cbn [mbind res_bind]. destruct r1.
    { f_equal. apply (anc_antisym _ _ _ _ Ht); try assumption. apply R1. reflexivity. }
    destruct (is_anc_ok g par dep level Hlev Hpow b B v u Hv Hu) as (r2 & -> & R2). cbn [mbind res_bind]. rewrite (proj2 R2 A). reflexivity.
  Qed.
  Lemma lca_level_panic k u v : u < n -> v < n -> ~ anc u v -> ~ anc v u -> level < k -> bl_lca (set_level b k) u v = Panic.
  Proof.
    intros Hu Hv N1 N2 Hk. unfold bl_lca. change (bl_is_ancestor (set_level b k)) with (bl_is_ancestor b). cbn [set_level bl_level bl_pa].
    destruct (is_anc_ok g par dep level Hlev Hpow b B u v Hu Hv) as (r1 & -> & R1). cbn [mbind res_bind]. destruct r1; [exfalso; apply N1, R1; reflexivity|].
    destruct (is_anc_ok g par dep level Hlev Hpow b B v u Hv Hu) as (r2 & -> & R2). cbn [mbind res_bind]. destruct r2; [exfalso; apply N2, R2; reflexivity|].
    destruct k as [|k]; [lia|]. unfold range. rewrite Nat.sub_0_r, seq_S, rev_app_distr. cbn [rev app rfor Nat.add]. rewrite pa_end by (try exact Hu; lia). reflexivity.
  Qed.
End level.
