(** BinaryLifting with the public field level assigned: main theorems. *)
From Verif Require Import Prelude UtilModel UtilProof TreeSpec TreeProof LiftModel LiftProof LiftProps LiftLevelModel LiftLevelProof TreeMetricModel TreeMetricSpec TreeMetricProof TreeMetricProps.

(** C125: with level set to k not above the built level, is_ancestor is unchanged, and lca(u, v) climbs from u at most 2^k steps
    towards the lowest common ancestor w; so it is right if w is at most 2^k above u or v is an ancestor of u. *)
Theorem C125_lower : forall g root, lift_ok g root (fun b => forall k u v w d, k <= bl_level b -> u < length g -> v < length g -> w < length g -> is_lca g root u v w -> is_dist g u w d ->
  bl_is_ancestor (set_level b k) u v = bl_is_ancestor b u v /\
  exists x, bl_lca (set_level b k) u v = Ok x /\ x < length g /\
    (ancestor g root v u -> x = v) /\ (d <= 2 ^ k -> x = w) /\
    (~ ancestor g root v u -> ancestor g root x u /\ ancestor g root w x /\ is_dist g u x (Nat.min (2 ^ k) d))).
Proof.
  intros g root. lifted b. intros k u v w d Hk Hu Hv Hw Hlca Hdist. split; [reflexivity|]. rewrite (w_level _ _ _ (b_wf _ _ _ _ _ B)) in Hk.
  apply (is_lca_iff _ _ _ _ R) in Hlca; try assumption. pose proof Hlca as (L1 & L2 & L3). pose proof (anc_dep _ _ _ _ R w u Hu L1) as Hd.
  assert (d = dep u - dep w) as ->.
  { apply (dist_unique g u w); [exact Hdist|]. apply (dist_sym _ _ _ _ R); try assumption. replace (dep u - dep w) with (dep w + dep u - 2 * dep w) by lia. apply (dist_ok _ _ _ _ R); try assumption. apply lcap_anc. exact L1. }
  destruct (anc_dec _ _ _ _ R v u Hu) as [A|A].
  - exists v. split; [exact (lca_level_anc g root par dep R lv H1 H2 b B k u v Hu Hv A)|]. split; [exact Hv|]. split; [reflexivity|]. split.
    + intros _. apply (anc_antisym _ _ _ _ R); try assumption. apply L3; [exact A|apply anc_refl].
    + intros F. exfalso. apply F. apply (ancestor_iff _ _ _ _ R); assumption.
  - rewrite (lca_level g root par dep R lv H1 H2 b B k u v w Hu Hv Hlca A Hk). eexists. split; [reflexivity|]. assert (Hx : up par (Nat.min (2 ^ k) (dep u - dep w)) u < length g) by (apply (up_lt _ _ _ _ R); exact Hu). split; [exact Hx|].
    destruct (anc_bound _ _ _ _ R w u Hu L1) as (j & J1 & J2 & J3). split; [|split].
    + intros F. exfalso. apply A. apply (ancestor_iff _ _ _ _ R) in F; assumption.
    + intros Hle. rewrite Nat.min_r by exact Hle. rewrite <- J2 at 2. f_equal. lia.
    + intros _. split; [apply (ancestor_iff _ _ _ _ R); try assumption; apply anc_up|]. split.
      * apply (ancestor_iff _ _ _ _ R); try assumption. exists (j - Nat.min (2 ^ k) (dep u - dep w)). rewrite <- up_add. transitivity (up par j u); [f_equal; lia|exact J2].
      * apply (up_dist g root par dep R lv H1 H2); [exact Hu|lia].
Qed.
Print Assumptions C125_lower.

(** A level above the built one: lca and dis panic, unless one of the vertices is an ancestor of the other. *)
Theorem C125_higher : forall g root, lift_ok g root (fun b => forall k u v, bl_level b < k -> u < length g -> v < length g ->
  (~ ancestor g root u v -> ~ ancestor g root v u -> bl_lca (set_level b k) u v = Panic /\ bl_dis (set_level b k) u v = Panic) /\
  (ancestor g root u v \/ ancestor g root v u -> bl_lca (set_level b k) u v = bl_lca b u v /\ bl_dis (set_level b k) u v = bl_dis b u v)).
Proof.
  intros g root. lifted b. intros k u v Hk Hu Hv. rewrite (w_level _ _ _ (b_wf _ _ _ _ _ B)) in Hk. rewrite !(ancestor_iff _ _ _ _ R) by assumption. split.
  - intros N1 N2. pose proof (lca_level_panic g par dep lv H1 H2 b B k u v Hu Hv N1 N2 Hk) as P. split; [exact P|]. unfold bl_dis. rewrite P. reflexivity.
  - intros A. assert (El : bl_lca (set_level b k) u v = bl_lca b u v).
    { unfold bl_lca. change (bl_is_ancestor (set_level b k)) with (bl_is_ancestor b). destruct (is_anc_ok g par dep lv H1 H2 b B u v Hu Hv) as (r1 & -> & R1). destruct (is_anc_ok g par dep lv H1 H2 b B v u Hv Hu) as (r2 & -> & R2). cbn [mbind res_bind].
      destruct A as [A|A]; [apply R1 in A as ->; reflexivity|apply R2 in A as ->; destruct r1; reflexivity]. }
    split; [exact El|]. unfold bl_dis. rewrite El. reflexivity.
Qed.
Print Assumptions C125_higher.

(** The path 0 - 1 - ... - 5 with a leaf 6 at 0, rooted at 0: level 3; lca(5, 6) is 0. *)
Definition ex_path : list (list nat) := [[1; 6]; [0; 2]; [1; 3]; [2; 4]; [3; 5]; [4]; [0]].
Lemma ex_path_ok : is_tree ex_path.
Proof.
  apply (rtree_tree ex_path 0 (fun v => nth v [0; 0; 1; 2; 3; 4; 0] 0) (fun v => nth v [0; 1; 2; 3; 4; 5; 1] 0)). split; [cbn; lia|reflexivity|reflexivity| | |].
  - intros v Hv Hne. do 7 (destruct v as [|v]; [cbn; lia|]). cbn in Hv. lia.
  - intros u es Hes. do 7 (destruct u as [|u]; [injection Hes as <-; apply (bool_decide_unpack _); vm_compute; exact I|]). discriminate.
  - intros u es v Hes. do 7 (destruct u as [|u]; [injection Hes as <-; rewrite !elem_of_cons, elem_of_nil; do 7 (destruct v as [|v]; [cbn; lia|]); cbn; lia|]).
    discriminate.
Qed.
Example C125_nonvacuous : is_tree ex_path /\ (b ← bl_from ex_path 0; Ok (bl_level b)) = Ok 3 /\ (b ← bl_from ex_path 0; bl_lca b 5 6) = Ok 0 /\
  (b ← bl_from ex_path 0; bl_lca (set_level b 2) 5 6) = Ok 1 /\ (b ← bl_from ex_path 0; bl_lca (set_level b 2) 4 6) = Ok 0 /\
  (b ← bl_from ex_path 0; bl_lca (set_level b 0) 5 6) = Ok 4 /\ (b ← bl_from ex_path 0; bl_lca (set_level b 0) 6 5) = Ok 0 /\
  (b ← bl_from ex_path 0; bl_lca (set_level b 4) 5 6) = Panic /\ (b ← bl_from ex_path 0; bl_dis (set_level b 4) 5 2) = Ok 3.
Proof. split; [exact ex_path_ok|]. vm_compute. auto 20. Qed.
