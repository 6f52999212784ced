(** Property C95: how deep the searches of src/graph/tarjan.rs, src/graph/bipartite_matching.rs and src/graph/max_flow.rs nest. *)
From stdpp Require Import relations.
From Verif Require Import Prelude IntModel ArraySpec TreeSpec SccModel SccProps MatchingModel MatchingSpec MatchingProps DinicModel DinicSpec DinicProof DinicProps GraphNestModel GraphNestSpec SccNestProof MatchingNestProof DinicNestProof.

(** C95, components: with room for k nested calls scc answers as with room enough, on every graph, if no path without repeated vertex has
    more than k vertices; so room for n calls is always enough. *)
Theorem C95_scc : forall g k, paths_upto g k -> scc_stack k g = scc g.
Proof. exact scc_room. Qed.
Print Assumptions C95_scc.
Theorem C95_scc_all : forall g k, (forall u v, edge g u v -> v < length g) -> length g <= k -> scc_stack k g = scc g.
Proof.
  intros g k He Hk. destruct g as [|es g]; [reflexivity|]. apply scc_room. intros u v l Hw Hnd. pose proof (paths_all (es :: g) He ltac:(cbn; lia) u v l Hw Hnd). lia.
Qed.
Print Assumptions C95_scc_all.

(** C95, components: it overflows the stack if some vertex is at distance k or more from vertex 0. *)
Theorem C95_scc_overflow : forall g k v d,
  (forall u v, edge g u v -> v < length g) -> (Z.of_nat (length g) <= 2 ^ 31 - 1)%Z -> 0 < length g -> is_dist g 0 v d -> k <= d ->
  scc_stack k g = Diverge.
Proof. intros g k v d He Hn H0 Hd Hk. exact (scc_short g v d k He Hn H0 Hd Hk). Qed.
Print Assumptions C95_scc_overflow.

(** The path 0 -> 1 -> ... -> n - 1. *)
Definition line (n : nat) : list (list nat) := map (fun i => if S i <? n then [S i] else []) (seq 0 n).
Lemma line_edge n u v : edge (line n) u v <-> v = S u /\ v < n.
Proof.
  unfold edge, line. split.
  - intros (es & Hes & Hv). apply list_lookup_fmap_inv in Hes as (i & -> & Hi). apply lookup_seq in Hi as [-> Hi]. cbn [Nat.add] in *. destruct (Nat.ltb_spec (S u) n); [|inversion Hv]. apply elem_of_list_singleton in Hv as ->. lia.
  - intros [-> Hv]. exists [S u]. split; [|left]. rewrite list_lookup_fmap, lookup_seq_lt by lia. cbn [fmap option_fmap option_map Nat.add]. destruct (Nat.ltb_spec (S u) n); [reflexivity|lia].
Qed.
Lemma line_len n : length (line n) = n.
Proof. unfold line. rewrite map_length, seq_length. reflexivity. Qed.
Lemma line_walk n u v l : walk (line n) u v l -> S v = u + length l.
Proof. induction 1 as [u|u w v l Hx _ IH]; cbn [length]; [lia|]. apply line_edge in Hx. lia. Qed.
Lemma line_to n : forall v, v < n -> exists l, walk (line n) 0 v l /\ length l = S v.
Proof.
  induction v as [|v IH]; intros Hv; [exists [0]; split; [apply walk_nil|reflexivity]|]. destruct IH as (l & Hl & E); [lia|]. exists (l ++ [S v]). split.
  - eapply walk_snoc; [exact Hl|]. apply line_edge. lia.
  - rewrite app_length, E. cbn. lia.
Qed.

(** C95, components: the bound n is needed; on a path of n vertices room for fewer calls overflows. *)
Theorem C95_scc_needs : forall n, 1 <= n -> (Z.of_nat n <= 2 ^ 31 - 1)%Z ->
  exists g, length g = n /\ (exists r, scc g = Ok r) /\ forall k, k < n -> scc_stack k g = Diverge.
Proof.
  intros n H1 Hn. exists (line n). split; [apply line_len|]. assert (forall u v, edge (line n) u v -> v < length (line n)) as He by (intros u v [_ Hv]%line_edge; rewrite line_len; exact Hv). split.
  - destruct (C25_scc (line n) He) as (cnt & col & E & _); [rewrite line_len; exact Hn|]. eauto.
  - intros k Hk. apply (C95_scc_overflow (line n) k (n - 1) (n - 1) He); rewrite ?line_len; [exact Hn|lia| |lia]. split.
    + destruct (line_to n (n - 1) ltac:(lia)) as (l & Hl & E). eauto.
    + intros l Hl. apply line_walk in Hl. lia.
Qed.
Print Assumptions C95_scc_needs.

(** C95, matching: any history on AugmentedPath::new(n, m), whatever the arguments, runs with room for min(n, m + 1) + 1 nested calls as
    with room enough. *)
Theorem C95_matching : forall n m k ops, S (Nat.min n (S m)) <= k -> run (bm_step_stack k) (bm_new n m) ops = run bm_step (bm_new n m) ops.
Proof. intros n m k ops Hk. exact (history_same n m k Hk ops). Qed.
Print Assumptions C95_matching.
(** C95, matching: less is not enough. *)
Theorem C95_matching_needs : forall n m, 2 <= n -> 1 <= m ->
  exists ops, Forall (fun o => match o with BmEdge u v => u < n /\ v < m | BmSolve => True end) ops /\
    forall k, k < S (Nat.min n (S m)) -> run (bm_step_stack k) (bm_new n m) ops = Diverge.
Proof.
  intros n m Hn Hm. set (c := Nat.min (n - 1) m). exists (deep_ops c). split.
  - unfold deep_ops. rewrite Forall_app, Forall_cons, Forall_app, Forall_cons, Forall_nil, !Forall_forall. split_and!; auto.
    + intros o (p & -> & (i & -> & Hi%elem_of_seq)%elem_of_list_fmap)%elem_of_list_fmap. cbn. unfold c in Hi. lia.
    + intros o (p & -> & (i & -> & Hi%elem_of_seq)%elem_of_list_fmap)%elem_of_list_fmap. cbn. unfold c in Hi. lia.
  - intros k Hk. apply (deep_history n m c k); unfold c; lia.
Qed.
Print Assumptions C95_matching_needs.

(** C95, flow: any history on Dinic::new(n), whatever the arguments, runs with room for n nested calls as with room enough. *)
Theorem C95_dinic : forall T n k ops, n <= k -> run (dn_step_stack k T) (dn_new n) ops = run (dn_step T) (dn_new n) ops.
Proof. intros T n k ops Hk. exact (dn_history_same T n k Hk ops). Qed.
Print Assumptions C95_dinic.
(** C95, flow: a first get_max_flow(s, t) overflows with room for k calls if t can be reached, but not along fewer than k edges. *)
Theorem C95_dinic_overflow : forall T n s t k es,
  T ∈ prim_types -> (Z.of_nat n <= 2 ^ 31 - 1)%Z -> s < n -> t < n -> s <> t ->
  Forall (fun x : fedge => x.1.1 < n /\ x.1.2 < n /\ (0 <= x.2 <= it_max T)%Z) es -> far es s t k ->
  run (dn_step_stack k T) (dn_new n) (map (fun x => DnEdge x.1.1 x.1.2 x.2) es ++ [DnFlow s t]) = Diverge.
Proof. intros T n s t k es HT Hn Hs Ht Hst Hes Hfar. destruct (prim_bounds T HT) as [H1 H2]. exact (history_short T n es s t k H1 H2 Hn Hes Hs Ht Hst Hfar). Qed.
Print Assumptions C95_dinic_overflow.

(** Edges i -> i + 1 of capacity 1. *)
Definition pipe (n : nat) : list fedge := map (fun i => (i, S i, 1%Z)) (seq 0 (n - 1)).
Lemma pipe_in n u v c : (u, v, c) ∈ pipe n <-> v = S u /\ v < n /\ c = 1%Z.
Proof.
  unfold pipe. split.
  - intros (i & [= -> -> ->] & Hi%elem_of_seq)%elem_of_list_fmap. lia.
  - intros (-> & Hv & ->). apply elem_of_list_fmap. exists u. split; [reflexivity|]. apply elem_of_seq. lia.
Qed.
Lemma pipe_walk n u v d : fwalk (pipe n) u v d -> v = u + d.
Proof. induction 1 as [u|u w v c d Hin _ _ IH]; [lia|]. apply pipe_in in Hin. lia. Qed.
Lemma pipe_to n : forall d u, u + d < n -> fwalk (pipe n) u (u + d) d.
Proof.
  induction d as [|d IH]; intros u Hu; [rewrite Nat.add_0_r; apply fw_nil|]. eapply (fw_cons _ u (S u) _ 1%Z); [apply pipe_in; lia|lia|]. replace (u + S d) with (S u + d) by lia. apply IH. lia.
Qed.
Lemma pipe_cut n : 2 <= n -> cut_cap (pipe n) (fun x => x =? 0) = 1%Z.
Proof.
  intros Hn. unfold pipe. destruct n as [|[|n]]; [lia|lia|]. cbn [Nat.sub seq map cut_cap Nat.eqb andb negb]. enough (forall k a, 1 <= a -> cut_cap (map (fun i => (i, S i, 1%Z)) (seq a k)) (fun x => x =? 0) = 0%Z) as H by (rewrite H by lia; reflexivity).
  induction k as [|k IH]; intros a Ha; [reflexivity|]. cbn [seq map cut_cap]. rewrite IH by lia. destruct (Nat.eqb_spec a 0); [lia|]. reflexivity.
Qed.
(** C95, flow: the bound n is needed. *)
Theorem C95_dinic_needs : forall T n, T ∈ prim_types -> 2 <= n -> (Z.of_nat n <= 2 ^ 31 - 1)%Z ->
  exists ops, (exists x, run (dn_step T) (dn_new n) ops = Ok x) /\ forall k, k < n -> run (dn_step_stack k T) (dn_new n) ops = Diverge.
Proof.
  intros T n HT H2 Hn. destruct (prim_bounds T HT) as [HT1 HT2]. exists (map (fun x => DnEdge x.1.1 x.1.2 x.2) (pipe n) ++ [DnFlow 0 (n - 1)]).
  assert (Forall (fun x : fedge => x.1.1 < n /\ x.1.2 < n /\ (0 <= x.2 <= it_max T)%Z) (pipe n)) as Hes by (apply Forall_forall; intros [[u v] c] Hin%pipe_in; cbn; lia).
  assert (dn_edges (map (fun x => DnEdge x.1.1 x.1.2 x.2) (pipe n) ++ [DnFlow 0 (n - 1)]) = pipe n) as Eops.
  { clear. induction (pipe n) as [|[[u v] c] es IH]; [reflexivity|]. cbn. f_equal. exact IH. }
  split.
  - destruct (C24_dinic T n 0 (n - 1) (map (fun x => DnEdge x.1.1 x.1.2 x.2) (pipe n) ++ [DnFlow 0 (n - 1)]) HT Hn ltac:(lia) ltac:(lia) ltac:(lia)) as (d & outs & E & _); [| |eauto].
    + apply Forall_app. split; [|constructor; auto]. apply Forall_forall. intros o (x & -> & Hx)%elem_of_list_fmap. rewrite Forall_forall in Hes. apply Hes. exact Hx.
    + rewrite Eops. intros fs Hfs. rewrite (value_cutflow n (pipe n) 0 (n - 1) fs (fun x => x =? 0)); auto.
      * pose proof (cutflow_le (pipe n) fs (fun x => x =? 0) (proj1 Hfs)) as HL. rewrite pipe_cut in HL by exact H2. lia.
      * intros u v c Hin%pipe_in. lia.
      * lia.
      * destruct (Nat.eqb_spec (n - 1) 0); [lia|reflexivity].
  - intros k Hk. apply C95_dinic_overflow; auto; try lia. split.
    + exists (n - 1). apply (pipe_to n (n - 1) 0). lia.
    + intros d Hd%pipe_walk. lia.
Qed.
Print Assumptions C95_dinic_needs.

(** A graph with a cycle, a matching and a network where the room matters. *)
Example C95_nonvacuous :
  (exists r, scc_stack 4 [[1]; [2]; [0; 3]; []] = Ok r) /\ scc_stack 3 [[1]; [2]; [0; 3]; []] = Diverge /\ is_dist [[1]; [2]; [0; 3]; []] 0 3 3 /\
  run (bm_step_stack 4) (bm_new 3 2) (deep_ops 2) = run bm_step (bm_new 3 2) (deep_ops 2) /\ run (bm_step_stack 3) (bm_new 3 2) (deep_ops 2) = Diverge /\
  (exists x, run (dn_step_stack 3 i32) (dn_new 3) [DnEdge 0 1 5; DnEdge 1 2 4; DnFlow 0 2] = Ok x) /\
  run (dn_step_stack 2 i32) (dn_new 3) [DnEdge 0 1 5; DnEdge 1 2 4; DnFlow 0 2] = Diverge.
Proof.
  split; [eexists; vm_compute; reflexivity|]. split; [vm_compute; reflexivity|]. split.
  { assert (forall u v, edge [[1]; [2]; [0; 3]; []] u v -> v <= S u) as He.
    { intros u v (es & Hes & Hv). do 4 (destruct u as [|u]; [injection Hes as <-; repeat (apply elem_of_cons in Hv as [->|Hv]; [lia|]); inversion Hv|]). discriminate Hes. }
    split.
    - exists [0; 1; 2; 3]. split; [|reflexivity]. apply walk_cons with 1; [exists [1]; split; [reflexivity|left]|]. apply walk_cons with 2; [exists [2]; split; [reflexivity|left]|].
      apply walk_cons with 3; [exists [0; 3]; split; [reflexivity|right; left]|]. apply walk_nil.
    - intros l Hl. assert (forall u v l, walk [[1]; [2]; [0; 3]; []] u v l -> S v <= u + length l) as H; [|apply H in Hl; lia].
      induction 1 as [u|u w v q Hx _ IH]; cbn [length]; [lia|]. apply He in Hx. lia. }
  split; [vm_compute; reflexivity|]. split; [vm_compute; reflexivity|]. split; [eexists; vm_compute; reflexivity|vm_compute; reflexivity].
Qed.
