(** BinaryLifting with all public fields filled by the client: main theorems (C136). *)
From Verif Require Import Prelude UtilModel TreeSpec TreeProof LiftModel LiftProof LiftProps LiftLevelProps TreeMetricSpec TreeMetricProof TreeMetricProps JumpSpec JumpProof.

(** C136: on fields that tell ancestors by intervals and hold jumps of lengths js, one per level, is_ancestor is right, lca never
    panics, and it is right on a vertex and its ancestor; on other pairs it climbs from u the lengths that fit below the lowest common
    ancestor, from the last to the first, and then one edge. *)
Theorem C136_exact : forall g root js b, is_tree g -> root < length g -> bl_level b = length js -> labels g root (bl_tin b) (bl_tout b) -> jumps g root js (bl_pa b) ->
  forall u v w d, u < length g -> v < length g -> w < length g -> is_lca g root u v w -> is_dist g u w d ->
  (exists r, bl_is_ancestor b u v = Ok r /\ (r = true <-> ancestor g root u v)) /\
  exists x, bl_lca b u v = Ok x /\ x < length g /\ (ancestor g root u v -> x = u) /\ (ancestor g root v u -> x = v) /\
    (~ ancestor g root u v -> ~ ancestor g root v u -> ancestor g root w x /\ ancestor g root x u /\ is_dist g u x (S (climb (rev js) d))).
Proof.
  intros g root js b T Hr Hlv HL HJ u v w d Hu Hv Hw Hlca Hdist. destruct (tree_rtree _ T _ Hr) as (par & dep & R). apply (is_lca_iff _ _ _ _ R) in Hlca; try assumption. pose proof Hlca as (L1 & _ & _). pose proof (anc_dep _ _ _ _ R w u Hu L1) as Hd.
  apply (dist_anc g root par dep R w u d Hu L1) in Hdist. pose proof (ancestor_iff _ _ _ _ R u v Hu Hv) as I1. pose proof (ancestor_iff _ _ _ _ R v u Hv Hu) as I2. split; [destruct (j_anc g root par dep R js b Hlv HL u v Hu Hv) as (r & Er & Ir); exists r; split; [exact Er|]; rewrite I1; exact Ir|].
  destruct (j_lca g root par dep R js b Hlv HL HJ u v w Hu Hv Hlca) as (x & E & X1 & X2 & X3). exists x. split; [exact E|]. rewrite I1, I2.
  destruct (anc_dec _ _ _ _ R u v Hv) as [A|A]; [rewrite (X1 A) in *; split; [exact Hu|]; split; [reflexivity|]; split; [exact X2|]; contradiction|].
  destruct (anc_dec _ _ _ _ R v u Hu) as [A'|A']; [rewrite (X2 A') in *; split; [exact Hv|]; split; [contradiction|]; split; [reflexivity|]; contradiction|].
  destruct (X3 A A') as [H1 ->]. rewrite <- Hdist in *. assert (Hx : up par (S (climb (rev js) d)) u < length g) by (apply (up_lt _ _ _ _ R); exact Hu). split; [exact Hx|]. split; [contradiction|]. split; [contradiction|]. intros _ _.
  pose proof (climb_lt (rev js) d H1) as C. rewrite !(ancestor_iff _ _ _ _ R) by assumption. split; [|split].
  - destruct (anc_bound _ _ _ _ R w u Hu L1) as (j & J1 & J2 & J3). exists (j - S (climb (rev js) d)). rewrite <- up_add. transitivity (up par j u); [f_equal; lia|exact J2].
  - apply anc_up.
  - apply (dist_anc g root par dep R _ u _ Hu (anc_up par _ u)). rewrite (dep_up _ _ _ _ R) by exact Hu. lia.
Qed.
Print Assumptions C136_exact.

(** With complete lengths that add up to n - 2 or more, lca is right on every pair; and so is dis if dep holds the depths. *)
Theorem C136_lca : forall g root js b, is_tree g -> root < length g -> bl_level b = length js -> labels g root (bl_tin b) (bl_tout b) -> jumps g root js (bl_pa b) ->
  complete js -> length g <= sum_list js + 2 ->
  forall u v, u < length g -> v < length g -> exists l, bl_lca b u v = Ok l /\ l < length g /\ is_lca g root u v l /\
    ((forall x, x < length g -> exists d, bl_dep b !! x = Some d /\ is_dist g root x d) -> exists d, bl_dis b u v = Ok d /\ is_dist g u v d).
Proof.
  intros g root js b T Hr Hlv HL HJ C Hs u v Hu Hv. destruct (tree_rtree _ T _ Hr) as (par & dep & R). destruct (j_right g root par dep R js b Hlv HL HJ C Hs u v Hu Hv) as (l & E & L). pose proof L as (L1 & L2 & _).
  pose proof (anc_lt _ _ _ _ R l u Hu L1) as Hl. exists l. split; [exact E|]. split; [exact Hl|]. split; [eapply is_lca_iff; eauto|]. intros D.
  assert (D' : forall x, x < length g -> bl_dep b !! x = Some (dep x)).
  { intros x Hx. destruct (D x Hx) as (d & -> & Hd). apply (dist_sym _ _ _ _ R) in Hd; try assumption. apply (dist_anc g root par dep R root x d Hx) in Hd; [|apply (anc_root _ _ _ _ R); exact Hx]. rewrite (t_root_dep _ _ _ _ R) in Hd. f_equal. lia. }
  exists (dep u + dep v - 2 * dep l). split; [|apply (dist_ok _ _ _ _ R); assumption]. pose proof (anc_dep _ _ _ _ R l u Hu L1). pose proof (anc_dep _ _ _ _ R l v Hv L2).
  unfold bl_dis. rewrite E. cbn [mbind res_bind]. rewrite (vget_ok _ _ _ (D' u Hu)), (vget_ok _ _ _ (D' v Hv)), (vget_ok _ _ _ (D' l Hl)). cbn [mbind res_bind]. unfold nsub. destruct (Nat.leb_spec (dep l) (dep u)); [|lia]. cbn [mbind res_bind]. destruct (Nat.leb_spec (dep l) (dep u - dep l + dep v)); [|lia]. f_equal. lia.
Qed.
Print Assumptions C136_lca.

(** Increasing lengths climb every distance up to 1 + their sum exactly if they are complete. *)
Theorem C136_complete : forall js, (forall i j x y, i < j -> js !! i = Some x -> js !! j = Some y -> x <= y) ->
  (complete js <-> forall d, 1 <= d <= S (sum_list js) -> S (climb (rev js) d) = d).
Proof.
  intros js Hs. split; [apply climb_complete|]. intros H i j Hi. destruct (Nat.le_gt_cases j (1 + sum_list (take i js))) as [Hle|Hgt]; [exact Hle|]. exfalso.
  set (d := 2 + sum_list (take i js)). pose proof (take_drop_middle js i j Hi) as Hm. assert (Hd : d <= 1 + sum_list js) by (rewrite <- Hm, sum_app; cbn; unfold d; lia).
  specialize (H d ltac:(unfold d; lia)). rewrite <- Hm, rev_app_distr, climb_skip in H; [pose proof (climb_le (rev (take i js)) d) as Q|].
  - assert (Er : forall l, sum_list (rev l) = sum_list l) by (clear; induction l as [|a l IH]; [reflexivity|]; cbn [rev]; rewrite sum_app, IH; cbn; lia). rewrite Er in Q. unfold d in *. lia.
  - apply Forall_forall. intros x Hx. apply elem_of_list_In, in_rev, elem_of_list_In, elem_of_cons in Hx as [->|Hx]; [unfold d; lia|]. apply elem_of_list_lookup in Hx as [k Hk]. rewrite lookup_drop in Hk. pose proof (Hs i (S i + k) j x ltac:(lia) Hi Hk). unfold d. lia.
Qed.
Print Assumptions C136_complete.

(** from fills the fields like this, with the powers of two. *)
Theorem C136_from : forall g root, lift_ok g root (fun b => exists js, js = map (fun i => 2 ^ i) (seq 0 (bl_level b)) /\ labels g root (bl_tin b) (bl_tout b) /\ jumps g root js (bl_pa b) /\
  complete js /\ length g <= sum_list js + 2 /\ forall x, x < length g -> exists d, bl_dep b !! x = Some d /\ is_dist g root x d).
Proof.
  intros g root. lifted b. exists (map (fun i => 2 ^ i) (seq 0 (bl_level b))). split; [reflexivity|]. rewrite (w_level _ _ _ (b_wf _ _ _ _ _ B)).
  assert (Sum : forall k, S (sum_list (map (fun i => 2 ^ i) (seq 0 k))) = 2 ^ k).
  { induction k as [|k IH]; [reflexivity|]. rewrite seq_S, map_app, sum_app. cbn [map sum_list_with sum_list Nat.add]. cbn -[Nat.pow]. rewrite Nat.pow_succ_r'. unfold sum_list in *. lia. }
  assert (At : forall i j, map (fun i => 2 ^ i) (seq 0 lv) !! i = Some j -> i < lv /\ j = 2 ^ i).
  { intros i j H. change (map ?f ?l) with (f <$> l) in H. rewrite list_lookup_fmap in H. destruct (seq 0 lv !! i) as [y|] eqn:Ey; [|discriminate]. apply lookup_seq in Ey as [-> Hi]. cbn in H. injection H as <-. auto. }
  split; [|split; [|split; [|split]]].
  - intros u v Hu Hv. pose proof (b_wf _ _ _ _ _ B) as W. destruct (lookup_lt_is_Some_2 (bl_tin b) u) as [tu E1]; [rewrite (w_tin _ _ _ W); exact Hu|]. destruct (lookup_lt_is_Some_2 (bl_tin b) v) as [tv E2]; [rewrite (w_tin _ _ _ W); exact Hv|]. destruct (lookup_lt_is_Some_2 (bl_tout b) u) as [ou E3]; [rewrite (w_tout _ _ _ W); exact Hu|].
    exists tu, tv, ou. split; [exact E1|]. split; [exact E2|]. split; [exact E3|]. rewrite (ancestor_iff _ _ _ _ R) by assumption. exact (b_nest _ _ _ _ _ B u v Hu Hv tu ou tv E1 E3 E2).
  - split; [destruct lv as [|lv']; [lia|reflexivity]|]. intros v i j Hv Hi. apply At in Hi as [Hi ->]. destruct (b_pa _ _ _ _ _ B v Hv) as (row & E1 & E2). exists row. exists (up par (2 ^ i) v). split; [exact E1|]. split; [apply E2, Hi|]. apply (above_iff g root par dep R v _ _ Hv). reflexivity.
  - intros i j Hi. apply At in Hi as [Hi ->]. replace lv with (i + (lv - i)) by lia. rewrite seq_app, map_app, take_app_alt by (rewrite map_length, seq_length; reflexivity). rewrite Sum. lia.
  - pose proof (Sum lv). lia.
  - intros x Hx. exists (dep x). split; [apply (b_dep _ _ _ _ _ B), Hx|]. apply (dist_sym _ _ _ _ R); [exact Hx|apply (t_root _ _ _ _ R)|]. apply (dist_anc g root par dep R root x); [exact Hx|apply (anc_root _ _ _ _ R), Hx|]. rewrite (t_root_dep _ _ _ _ R). lia.
Qed.
Print Assumptions C136_from.

(** Any strictly increasing renumbering of tin and tout keeps the intervals right. *)
Theorem C136_renumber : forall g root tin tout f, (forall x y, x < y -> f x < f y) -> labels g root tin tout -> labels g root (map f tin) (map f tout).
Proof.
  intros g root tin tout f F L u v Hu Hv. destruct (L u v Hu Hv) as (tu & tv & ou & E1 & E2 & E3 & I). exists (f tu), (f tv), (f ou). change (map ?f ?l) with (f <$> l). rewrite !list_lookup_fmap, E1, E2, E3. cbn. split_and!; try reflexivity. rewrite <- I.
  pose proof (F tu tv). pose proof (F tv tu). pose proof (F tv ou). pose proof (F ou tv). destruct (Nat.lt_trichotomy tu tv) as [?|[->|?]], (Nat.lt_trichotomy tv ou) as [?|[->|?]]; lia.
Qed.
Print Assumptions C136_renumber.

(** The tree of C125_nonvacuous rooted at 0, with times renumbered by 10 x + 3: jumps 1, 2, 2 are complete and long enough; with jumps
    1, 3 lca(3, 6) is wrong. *)
Lemma ex_path_rtree : rtree ex_path 0 (fun v => nth v [0; 0; 1; 2; 3; 4; 0] 0) (fun v => nth v [0; 1; 2; 3; 4; 5; 1] 0).
Proof.
  split; [cbn; lia|reflexivity|reflexivity| | |].
  - intros v Hv Hne. do 7 (destruct v as [|v]; [cbn; lia|]). cbn in Hv. lia.
  - intros u es Hes. do 7 (destruct u as [|u]; [injection Hes as <-; apply (bool_decide_unpack _); vm_compute; exact I|]). discriminate.
  - intros u es v Hes. do 7 (destruct u as [|u]; [injection Hes as <-; rewrite !elem_of_cons, elem_of_nil; do 7 (destruct v as [|v]; [cbn; lia|]); cbn; lia|]).
    discriminate.
Qed.
Definition ex_tin : list nat := map (fun x => 10 * x + 3) [0; 1; 2; 3; 4; 5; 6].
Definition ex_tout : list nat := map (fun x => 10 * x + 3) [7; 6; 6; 6; 6; 6; 7].
Definition ex_b (js : list nat) : bl := BL (length js) (map (fun v => map (fun j => up (fun v => nth v [0; 0; 1; 2; 3; 4; 0] 0) j v) js) (seq 0 7)) [0; 1; 2; 3; 4; 5; 1] ex_tin ex_tout.
Lemma ex_jumps js : js !! 0 = Some 1 -> jumps ex_path 0 js (bl_pa (ex_b js)).
Proof.
  intros H0. split; [exact H0|]. intros v i j Hv Hj. set (par := fun v => nth v [0; 0; 1; 2; 3; 4; 0] 0). exists (map (fun j => up par j v) js), (up par j v). split; [|split].
  - unfold ex_b. cbn [bl_pa]. change (map ?f ?l) with (f <$> l) at 1. rewrite list_lookup_fmap, lookup_seq_lt by exact Hv. reflexivity.
  - change (map ?f ?l) with (f <$> l). rewrite list_lookup_fmap, Hj. reflexivity.
  - apply (above_iff _ _ _ _ ex_path_rtree v j _ Hv). reflexivity.
Qed.
Example C136_nonvacuous : is_tree ex_path /\ labels ex_path 0 ex_tin ex_tout /\ jumps ex_path 0 [1; 2; 2] (bl_pa (ex_b [1; 2; 2])) /\ complete [1; 2; 2] /\ length ex_path <= sum_list [1; 2; 2] + 2 /\
  bl_lca (ex_b [1; 2; 2]) 5 6 = Ok 0 /\ bl_dis (ex_b [1; 2; 2]) 5 6 = Ok 6 /\ bl_lca (ex_b [1; 2; 2]) 3 5 = Ok 3 /\
  jumps ex_path 0 [1; 3] (bl_pa (ex_b [1; 3])) /\ ~ complete [1; 3] /\ bl_lca (ex_b [1; 3]) 3 6 = Ok 1.
Proof.
  split; [exact ex_path_ok|]. split.
  { apply C136_renumber; [lia|]. destruct (C136_from ex_path 0 ex_path_ok ltac:(cbn; lia) ltac:(cbn; lia)) as (b & E & js & _ & L & _). vm_compute in E. injection E as <-. exact L. }
  split; [apply ex_jumps; reflexivity|]. split; [intros i j Hi; do 3 (destruct i as [|i]; [injection Hi as <-; cbn; lia|]); discriminate|]. split; [cbn; lia|]. split; [reflexivity|]. split; [reflexivity|]. split; [reflexivity|].
  split; [apply ex_jumps; reflexivity|]. split; [|reflexivity]. intros C. specialize (C 1 3 eq_refl). cbn in C. lia.
Qed.
