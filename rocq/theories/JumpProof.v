From Verif Require Import Prelude UtilModel TreeSpec TreeProof LiftModel LiftProof LiftLevelModel LiftLevelProof TreeMetricSpec TreeMetricProof JumpSpec.

Lemma climb_le js : forall d, climb js d <= sum_list js.
Proof. induction js as [|j js IH]; intros d; cbn; [lia|]. destruct (_ <? _); [specialize (IH (d - j))|specialize (IH d)]; lia. Qed.
Lemma climb_lt js : forall d, 1 <= d -> climb js d < d.
Proof. induction js as [|j js IH]; intros d Hd; cbn; [lia|]. destruct (Nat.ltb_spec j d); [specialize (IH (d - j))|specialize (IH d)]; lia. Qed.
Lemma climb_skip js js' d : Forall (fun j => d <= j) js -> climb (js ++ js') d = climb js' d.
Proof. induction 1 as [|j js Hj _ IH]; [reflexivity|]. cbn. destruct (Nat.ltb_spec j d); [lia|exact IH]. Qed.
Lemma sum_app l l' : sum_list (l ++ l') = sum_list l + sum_list l'.
Proof. induction l as [|a l IH]; cbn; lia. Qed.
Lemma climb_complete js : complete js -> forall d, 1 <= d <= S (sum_list js) -> S (climb (rev js) d) = d.
Proof.
  induction js as [|j js IH] using rev_ind; intros C d Hd; [cbn in *; lia|].
  rewrite rev_app_distr. cbn [rev app climb]. rewrite sum_app in Hd. cbn in Hd.
  assert (Hj : j <= S (sum_list js)). { pose proof (C (length js) j) as Q. rewrite list_lookup_middle in Q by reflexivity. rewrite take_app in Q. apply Q. reflexivity. }
  assert (C' : complete js). { intros i x Hi. pose proof (lookup_lt_Some _ _ _ Hi). pose proof (C i x) as Q. rewrite lookup_app_l, take_app_le in Q by lia. apply Q, Hi. }
  destruct (Nat.ltb_spec j d); [rewrite <- Nat.add_succ_r, (IH C') by lia; lia|apply (IH C'); lia].
Qed.

Section jump.
  Context (g : list (list nat)) (root : nat) (par dep : nat -> nat) (Ht : rtree g root par dep).
  Notation n := (length g).
  Notation up := (up par).
  Notation anc := (anc par).
  Lemma dist_anc w u d : u < n -> anc w u -> is_dist g u w d <-> d = dep u - dep w.
  Proof.
    intros Hu A. pose proof (anc_lt _ _ _ _ Ht w u Hu A) as Hw. pose proof (anc_dep _ _ _ _ Ht w u Hu A) as Hd.
    assert (D : is_dist g u w (dep u - dep w)).
    { apply (dist_sym _ _ _ _ Ht); try assumption. replace (dep u - dep w) with (dep w + dep u - 2 * dep w) by lia. apply (dist_ok _ _ _ _ Ht); try assumption. apply lcap_anc, A. }
    split; [intros D'; apply (dist_unique g u w); assumption|intros ->; exact D].
  Qed.
  Lemma above_iff v j w : v < n -> above g root v j w <-> w = up j v.
  Proof.
    intros Hv. assert (Hup : up j v < n) by (apply (up_lt _ _ _ _ Ht); exact Hv). pose proof (t_root _ _ _ _ Ht) as Hr. split.
    - intros (Hw & A & D). apply (ancestor_iff _ _ _ _ Ht) in A; try assumption. destruct D as [D|(-> & d & D & Hd)].
      + apply (dist_anc w v j Hv A) in D. destruct (anc_bound _ _ _ _ Ht w v Hv A) as (k & K1 & K2 & K3). rewrite <- K2. f_equal. lia.
      + apply (dist_anc root v d Hv) in D; [|apply (anc_root _ _ _ _ Ht); exact Hv]. rewrite (t_root_dep _ _ _ _ Ht) in D. symmetry. apply (up_high _ _ _ _ Ht); [exact Hv|lia].
    - intros ->. split; [exact Hup|]. split; [apply (ancestor_iff _ _ _ _ Ht); try assumption; apply anc_up|]. destruct (Nat.le_gt_cases j (dep v)) as [Hle|Hgt].
      + left. apply (dist_anc _ v j Hv (anc_up par j v)). rewrite (dep_up _ _ _ _ Ht) by exact Hv. lia.
      + right. rewrite (up_high _ _ _ _ Ht) by (try exact Hv; lia). split; [reflexivity|]. exists (dep v). split; [|lia]. apply (dist_anc root v); [exact Hv|apply (anc_root _ _ _ _ Ht); exact Hv|]. rewrite (t_root_dep _ _ _ _ Ht). lia.
  Qed.

  Context (js : list nat) (b : bl) (Hlevel : bl_level b = length js) (HL : labels g root (bl_tin b) (bl_tout b)) (HJ : jumps g root js (bl_pa b)).
  Lemma j_anc u v : u < n -> v < n -> exists r, bl_is_ancestor b u v = Ok r /\ (r = true <-> anc u v).
  Proof.
    intros Hu Hv. destruct (HL u v Hu Hv) as (tu & tv & ou & E1 & E2 & E3 & I). rewrite (ancestor_iff _ _ _ _ Ht) in I by assumption. unfold bl_is_ancestor. rewrite (vget_ok _ _ _ E1), (vget_ok _ _ _ E2). cbn [mbind res_bind].
    destruct (Nat.leb_spec tu tv) as [H|H].
    - rewrite (vget_ok _ _ _ E3). cbn [mbind res_bind]. eexists. split; [reflexivity|]. rewrite Nat.ltb_lt, <- I. lia.
    - eexists. split; [reflexivity|]. rewrite <- I. split; [discriminate|lia].
  Qed.
  Lemma j_pa v i j : v < n -> js !! i = Some j -> pa_get (bl_pa b) v i = Ok (up j v).
  Proof. intros Hv Hi. destruct HJ as [_ J]. destruct (J v i j Hv Hi) as (row & w & E1 & E2 & A). apply (above_iff v j w Hv) in A as ->. exact (pa_get_ok _ _ _ _ _ E1 E2). Qed.
  Lemma j_loop u v l (Hu : u < n) (Hv : v < n) (L : lcap par u v l) : forall k c, k <= length js -> c < dep u - dep l ->
    rfor (rev (range 0 k)) (fun i u => x ← pa_get (bl_pa b) u i; a ← bl_is_ancestor b x v; if a : bool then Ok u else Ok x) (up c u) = Ok (up (c + climb (rev (take k js)) (dep u - dep l - c)) u).
  Proof.
    induction k as [|k IH]; intros c Hk Hc; [cbn; rewrite Nat.add_0_r; reflexivity|]. destruct (lookup_lt_is_Some_2 js k Hk) as [j Hj].
    rewrite (take_S_r _ _ _ Hj), rev_app_distr. unfold range. rewrite Nat.sub_0_r, seq_S, rev_app_distr. cbn [rev app rfor climb Nat.add]. pose proof L as (L1 & L2 & L3). pose proof (anc_dep _ _ _ _ Ht l u Hu L1) as Hd.
    assert (Hx : up c u < n) by (apply (up_lt _ _ _ _ Ht); exact Hu). rewrite (j_pa _ k j Hx Hj). cbn [mbind res_bind]. rewrite <- up_add, (Nat.add_comm j c). assert (Hy : up (c + j) u < n) by (apply (up_lt _ _ _ _ Ht); exact Hu).
    destruct (j_anc (up (c + j) u) v Hy Hv) as (r & -> & R). cbn [mbind res_bind].
    assert (RI : r = true <-> dep u - dep l <= c + j).
    { rewrite R. destruct (decide (c + j <= dep u)) as [Hle|Hgt]; [assert (HP : length g < 2 ^ S (length g)) by (pose proof (Nat.pow_gt_lin_r 2 (S (length g))); lia); apply (up_anc_iff g root par dep Ht (S (length g)) ltac:(lia) HP u v l); assumption|]. split; [lia|]. intros _. rewrite (up_high _ _ _ _ Ht) by (try exact Hu; lia). apply (anc_root _ _ _ _ Ht). exact Hv. }
    unfold range in IH. rewrite Nat.sub_0_r in IH. destruct r; cbn [mbind res_bind].
    - pose proof (proj1 RI eq_refl). destruct (Nat.ltb_spec j (dep u - dep l - c)); [lia|]. apply IH; lia.
    - assert (~ dep u - dep l <= c + j) by (intros F; apply RI in F; discriminate). destruct (Nat.ltb_spec j (dep u - dep l - c)); [|lia]. rewrite IH by lia. f_equal. f_equal. rewrite <- Nat.add_assoc. do 3 f_equal. lia.
  Qed.
  Lemma j_lca u v l : u < n -> v < n -> lcap par u v l ->
    exists x, bl_lca b u v = Ok x /\ (anc u v -> x = u) /\ (anc v u -> x = v) /\ (~ anc u v -> ~ anc v u -> 1 <= dep u - dep l /\ x = up (S (climb (rev js) (dep u - dep l))) u).
  Proof.
    intros Hu Hv L. unfold bl_lca. destruct (j_anc u v Hu Hv) as (r1 & -> & R1). cbn [mbind res_bind]. destruct r1.
    { exists u. split; [reflexivity|]. pose proof (proj1 R1 eq_refl) as A. split; [reflexivity|]. split; [intros A'; apply (anc_antisym _ _ _ _ Ht); assumption|intros F; contradiction]. }
    assert (Huv : ~ anc u v) by (intros A; apply R1 in A; discriminate). clear R1. destruct (j_anc v u Hv Hu) as (r2 & -> & R2). cbn [mbind res_bind]. destruct r2.
    { exists v. split; [reflexivity|]. split; [contradiction|]. split; [reflexivity|]. intros _ F. exfalso. apply F, R2. reflexivity. }
    assert (Hvu : ~ anc v u) by (intros A; apply R2 in A; discriminate). clear R2. pose proof L as (L1 & L2 & _).
    assert (HD : 1 <= dep u - dep l). { destruct (decide (1 <= dep u - dep l)) as [|Hn]; [assumption|]. exfalso. apply Huv. assert (l = u) as -> by (apply (anc_dep_eq _ _ _ _ Ht); [assumption..|lia]). exact L2. }
    rewrite Hlevel. pose proof (j_loop u v l Hu Hv L (length js) 0 (Nat.le_refl _) ltac:(lia)) as E. rewrite firstn_all, Nat.sub_0_r in E. cbn [Nat.add] in E. change (up 0 u) with u in E. rewrite E. cbn [mbind res_bind].
    rewrite (j_pa _ 0 1); [|apply (up_lt _ _ _ _ Ht); exact Hu|apply HJ]. rewrite <- up_add. eexists. split; [reflexivity|]. split; [contradiction|]. split; [contradiction|]. auto.
  Qed.
  Lemma j_right : complete js -> n <= sum_list js + 2 -> forall u v, u < n -> v < n -> exists l, bl_lca b u v = Ok l /\ lcap par u v l.
  Proof.
    intros C Hs u v Hu Hv. destruct (lcap_exists _ _ _ _ Ht u v Hu Hv) as [l L]. destruct (j_lca u v l Hu Hv L) as (x & E & X1 & X2 & X3). exists x. split; [exact E|]. pose proof L as (L1 & L2 & L3).
    destruct (anc_dec _ _ _ _ Ht u v Hv) as [A|A]; [rewrite (X1 A); apply lcap_anc, A|]. destruct (anc_dec _ _ _ _ Ht v u Hu) as [A'|A'].
    { rewrite (X2 A'). split; [exact A'|]. split; [apply anc_refl|]. intros w _ Hw. exact Hw. }
    destruct (X3 A A') as [H1 ->]. pose proof (dep_lt _ _ _ _ Ht u Hu). rewrite (climb_complete js C) by lia. destruct (anc_bound _ _ _ _ Ht l u Hu L1) as (j & J1 & J2 & J3). replace (dep u - dep l) with j by lia. rewrite J2. exact L.
  Qed.
End jump.
