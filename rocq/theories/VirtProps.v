(** The auxiliary tree of a set of vertices (C128). *)
From Coq Require Import Sorting.Sorted.
From Verif Require Import Prelude UtilModel UtilProof TreeSpec TreeProof LiftModel LiftProof LiftProps VirtModel VirtSpec VirtProof TreeMetricProps LiftLevelProps.

(** C128: the vertices are those of vs and the lcas of vertices of vs and nothing else: the least set closed under lca; each once, at most 2k - 1 for k vertices,
    in the order of tin. *)
Theorem C128_nodes : forall g root, lift_ok g root (fun b => forall vs, Forall (fun v => v < length g) vs ->
  exists V, virt_nodes b vs = Ok V /\ NoDup V /\ closure_of g root vs V /\ length V <= 2 * length vs - 1 /\ Forall (fun v => v < length g) V /\
    forall i j x y, i < j -> V !! i = Some x -> V !! j = Some y -> exists tx ty, bl_tin b !! x = Some tx /\ bl_tin b !! y = Some ty /\ tx < ty).
Proof.
  intros g root. lifted b. intros vs Hv. destruct (nodes_ok g root par dep R lv H1 H2 b B vs Hv) as (V & EV & S & HV & L & In & C & F). exists V. split; [exact EV|]. split; [|split; [|split; [exact L|split; [exact HV|]]]].
  - apply NoDup_alt. intros i j x Hi Hj. destruct (Nat.lt_trichotomy i j) as [Hlt|[->|Hlt]]; [|reflexivity|]; exfalso.
    + pose proof (ssorted_lookup _ _ i j x x S Hlt Hi Hj) as Q. cbn in Q. lia.
    + pose proof (ssorted_lookup _ _ j i x x S Hlt Hj Hi) as Q. cbn in Q. lia.
  - rewrite Forall_forall in HV, Hv. split; [exact In|]. split.
    + intros x y l Hx Hy Hl Hlca. apply (is_lca_iff _ _ _ _ R) in Hlca; auto. exact (C x y l Hx Hy Hlca).
    + intros W W1 W2 v Hin. destruct (F v Hin) as (x & y & Hx & Hy & Hlca). apply (W2 x y v); [apply W1; exact Hx|apply W1; exact Hy|apply HV; exact Hin|]. apply (is_lca_iff _ _ _ _ R); auto.
  - intros i j x y Hij Hx Hy. pose proof (ssorted_lookup _ _ i j x y S Hij Hx Hy) as Q. cbn in Q. rewrite Forall_lookup in HV.
    pose proof (HV _ _ Hx) as Hxn. pose proof (HV _ _ Hy) as Hyn. pose proof (w_tin _ _ _ (b_wf _ _ _ _ _ B)) as Wt. destruct (lookup_lt_is_Some_2 (bl_tin b) x) as [tx Tx]; [lia|]. destruct (lookup_lt_is_Some_2 (bl_tin b) y) as [ty Ty]; [lia|].
    exists tx, ty. unfold tin in Q. rewrite Tx, Ty in Q. cbn in Q. auto.
Qed.
Print Assumptions C128_nodes.

(** The lca of the i-th vertex and the next one is the parent of the latter: the lowest vertex of the set properly above it.  The first vertex is above all. *)
Theorem C128_tree : forall g root, lift_ok g root (fun b => forall vs, Forall (fun v => v < length g) vs ->
  exists V ps, virt_tree b vs = Ok (V, ps) /\ virt_nodes b vs = Ok V /\ length ps = length V - 1 /\
    (forall i x p, V !! S i = Some x -> ps !! i = Some p -> parent_in g root V x p) /\
    forall r x, V !! 0 = Some r -> x ∈ V -> ancestor g root r x).
Proof.
  intros g root. lifted b. intros vs Hv. destruct (nodes_ok g root par dep R lv H1 H2 b B vs Hv) as (V & EV & S & HV & L & In & C & F). destruct (tree_ok g root par dep R lv H1 H2 b B vs V HV S C EV) as (ps & Ep & Lp & P & T0).
  exists V, ps. split; [exact Ep|]. split; [exact EV|]. split; [exact Lp|]. pose proof HV as HV'. rewrite Forall_forall in HV'. split.
  - intros i x p Hx Hp. destruct (P i x p Hx Hp) as (P1 & P2 & P3 & P4). pose proof (HV' _ (elem_of_list_lookup_2 _ _ _ Hx)) as Hxn. pose proof (HV' _ P1) as Hpn. split; [exact P1|]. split; [exact P2|]. split; [apply (ancestor_iff _ _ _ _ R); assumption|].
    intros w Hw Hne Aw. pose proof (HV' _ Hw). apply (ancestor_iff _ _ _ _ R); try assumption. apply P4; try assumption. apply (ancestor_iff _ _ _ _ R) in Aw; assumption.
  - intros r x Hr0 Hx. apply (ancestor_iff _ _ _ _ R); [exact (HV' _ (elem_of_list_lookup_2 _ _ _ Hr0))|exact (HV' _ Hx)|]. exact (T0 r x Hr0 Hx).
Qed.
Print Assumptions C128_tree.

Example C128_nonvacuous : is_tree ex_path /\ (b ← bl_from ex_path 0; virt_tree b [6; 4; 2; 4]) = Ok ([0; 2; 4; 6], [0; 2; 0]) /\
  (b ← bl_from ex_path 0; virt_tree b [5; 6]) = Ok ([0; 5; 6], [0; 0]) /\ (b ← bl_from ex_path 0; virt_tree b []) = Ok ([], []) /\ (b ← bl_from ex_path 0; virt_tree b [5]) = Ok ([5], []).
Proof. split; [exact ex_path_ok|]. vm_compute. auto. Qed.
