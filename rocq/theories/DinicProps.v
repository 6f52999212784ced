(** Property C24: src/graph/max_flow.rs *)
From Verif Require Import Prelude IntModel ArraySpec DinicModel DinicSpec DinicProof DinicNeg.
Open Scope Z_scope.

Lemma prim_bounds T : T ∈ prim_types -> 0 < it_max T /\ it_min T <= 0.
Proof.
  unfold prim_types. rewrite !elem_of_cons, elem_of_nil.
  intros H. repeat destruct H as [-> | H]; try (split; vm_compute; congruence). done.
Qed.

(** C24: on Dinic::new(n), any history of add_edge (vertices in range, capacities >= 0) and get_max_flow(s, t) calls with one
    pair s <> t runs without panic and terminates, and each answer brings the total of the answers to the value of a maximum
    flow, which is also the capacity of a minimum cut, of the edges added so far.  Proviso: the value of every flow fits T.
    With a single get_max_flow at the end this is: it returns the maximum flow. *)
Theorem C24_dinic : forall T n s t ops,
  T ∈ prim_types -> Z.of_nat n <= 2 ^ 31 - 1 -> (s < n)%nat -> (t < n)%nat -> s <> t ->
  Forall (fun o => match o with
                   | DnEdge u v c => (u < n)%nat /\ (v < n)%nat /\ 0 <= c <= it_max T
                   | DnFlow s' t' => s' = s /\ t' = t end) ops ->
  (forall fs, feasible (dn_edges ops) s t fs -> flow_value (dn_edges ops) s fs <= it_max T) ->
  exists d outs, run (dn_step T) (dn_new n) ops = Ok (d, outs) /\ dn_spec s t [] 0 ops outs.
Proof.
  intros T n s t ops HT Hn Hs Ht Hst Hops Hmax. destruct (prim_bounds T HT) as [H1 H2].
  apply (dn_history T n s t H1 H2 Hn Hs Ht Hst ops [] (dn_new n) 0); auto.
  - apply dn_new_inv.
  - lia.
Qed.
Print Assumptions C24_dinic.

Lemma build_ok T n es : Forall (fun x : fedge => (x.1.1 < n)%nat /\ (x.1.2 < n)%nat /\ 0 <= x.2 <= it_max T) es ->
  exists d, rfor es (fun x d => dn_add_edge d x.1.1 x.1.2 x.2) (dn_new n) = Ok d /\ dinv n es d /\ forall x, netf es (dn_e d) x = 0.
Proof.
  intros Hes. apply (rfor_inv (fun done d => dinv n done d /\ forall x, netf done (dn_e d) x = 0)).
  - split; [apply dn_new_inv|reflexivity].
  - intros done [[u v] c] rest d Hsp [Hd Hnet]. rewrite Hsp in Hes. apply Forall_app in Hes as [_ Hes]. inversion Hes as [|? ? (Hu & Hv & Hc) _]; subst.
    cbn [fst snd] in *. destruct (add_edge_ok n done d u v c Hd Hu Hv ltac:(lia)) as (d' & E' & Hd' & Hn'). exists d'. split; [exact E'|]. split; [exact Hd'|].
    intros x. rewrite Hn'. apply Hnet.
Qed.
Lemma build_cap T n es : 0 < it_max T -> Forall (fun x : fedge => (x.1.1 < n)%nat /\ (x.1.2 < n)%nat /\ 0 <= x.2 <= it_max T) es ->
  forall j, ecap es j <= it_max T.
Proof.
  intros H1 Hes j. unfold ecap. destruct (es !! (j / 2)%nat) as [[[u v] c]|] eqn:Ej; [|lia].
  rewrite Forall_forall in Hes. apply (Hes (u, v, c)). eapply elem_of_list_lookup_2. exact Ej.
Qed.

(** The plain form: build the network, call once. *)
Theorem C24_max_flow : forall T n s t (es : list fedge),
  T ∈ prim_types -> Z.of_nat n <= 2 ^ 31 - 1 -> (s < n)%nat -> (t < n)%nat -> s <> t ->
  Forall (fun x => (x.1.1 < n)%nat /\ (x.1.2 < n)%nat /\ 0 <= x.2 <= it_max T) es ->
  (forall fs, feasible es s t fs -> flow_value es s fs <= it_max T) ->
  exists d d' v, rfor es (fun x d => dn_add_edge d x.1.1 x.1.2 x.2) (dn_new n) = Ok d /\
    dn_max_flow T d s t = Ok (d', v) /\ is_max_flow es s t v /\ is_min_cut es s t v.
Proof.
  intros T n s t es HT Hn Hs Ht Hst Hes Hmax. destruct (prim_bounds T HT) as [H1 H2].
  destruct (build_ok T n es Hes) as (d & E & Hd & Hnet).
  destruct (max_flow_ok T n es d s t 0 H1 H2 Hn (build_cap T n es H1 Hes)) as (d' & v & E' & _ & _ & _ & _ & M1 & M2); auto.
  exists d, d', v. split; [exact E|]. split; [exact E'|]. split; [exact M1|exact M2].
Qed.
Print Assumptions C24_max_flow.

(** Without the proviso: either the answer is the maximum flow, or some flow exceeds T and the addition to the answer panics;
    never a wrong number, never an endless loop. *)
Theorem C24_overflow : forall T n s t (es : list fedge) d,
  T ∈ prim_types -> Z.of_nat n <= 2 ^ 31 - 1 -> (s < n)%nat -> (t < n)%nat -> s <> t ->
  Forall (fun x => (x.1.1 < n)%nat /\ (x.1.2 < n)%nat /\ 0 <= x.2 <= it_max T) es ->
  rfor es (fun x d => dn_add_edge d x.1.1 x.1.2 x.2) (dn_new n) = Ok d ->
  (dn_max_flow T d s t = Panic /\ exists fs, feasible es s t fs /\ it_max T < flow_value es s fs) \/
  exists d' v, dn_max_flow T d s t = Ok (d', v) /\ is_max_flow es s t v.
Proof.
  intros T n s t es d0 HT Hn Hs Ht Hst Hes Hd0. destruct (prim_bounds T HT) as [H1 H2].
  destruct (build_ok T n es Hes) as (d & E & Hd & Hnet). rewrite E in Hd0. injection Hd0 as <-.
  destruct (max_flow_total T n es d s t 0 H1 H2 Hn) as [[E' (fs & F1 & F2)]|(d' & v & E' & _ & _ & _ & _ & M1 & M2)]; auto.
  - exact (build_cap T n es H1 Hes).
  - left. split; [exact E'|]. exists fs. split; [exact F1|]. lia.
  - right. exists d', v. auto.
Qed.
Print Assumptions C24_overflow.

(** The code asserts that s and t are vertices, and an edge with an end out of range panics. *)
Theorem C24_bad_args : forall T n s t, (n <= s)%nat \/ (n <= t)%nat -> dn_max_flow T (dn_new n) s t = Panic.
Proof.
  intros T n s t H. unfold dn_max_flow. cbn [dn_n dn_new]. destruct (Nat.ltb_spec s n); cbn; [|reflexivity].
  destruct (Nat.ltb_spec t n); cbn; [lia|reflexivity].
Qed.
Print Assumptions C24_bad_args.

(** C24 for every history of calls, with any s and t in each, in range or not, equal or not: each answer is the most that can
    still be sent from s to t on top of what the earlier calls routed; the only panics are a vertex out of range and an answer
    that exceeds T. *)
Theorem C24_any_history : forall T n ops,
  T ∈ prim_types -> Z.of_nat n <= 2 ^ 31 - 1 ->
  Forall (fun o => match o with DnEdge _ _ c => 0 <= c <= it_max T | DnFlow _ _ => True end) ops ->
  dn_allowed T n [] [] ops (snd <$> run (dn_step T) (dn_new n) ops).
Proof.
  intros T n ops HT Hn Hops. destruct (prim_bounds T HT) as [H1 H2].
  apply (any_history T n H1 H2 Hn ops [] (dn_new n) Hops (Forall_nil_2 _) (dn_new_inv n)).
Qed.
Print Assumptions C24_any_history.

(** Negative capacities count as 0: every history, whatever the arguments, answers and panics as with c replaced by max(0, c),
    so that C24_any_history says what the answers are. *)
Theorem C24_negative : forall T n ops,
  snd <$> run (dn_step T) (dn_new n) ops =
  snd <$> run (dn_step T) (dn_new n) (map (fun o => match o with DnEdge u v c => DnEdge u v (Z.max 0 c) | DnFlow s t => DnFlow s t end) ops).
Proof.
  intros T n ops. pose proof (run_neg T ops (dn_new n) (dn_new n) (new_rel n)) as H. change (map _ ops) with (map clip ops).
  destruct (run (dn_step T) (dn_new n) ops) as [[d o]| |], (run (dn_step T) (dn_new n) (map clip ops)) as [[d' o']| |]; cbn in H |- *; try contradiction; congruence.
Qed.
Print Assumptions C24_negative.
Example C24_negative_nonvacuous :
  snd <$> run (dn_step i32) (dn_new 3) [DnEdge 0 1 (-5); DnEdge 0 1 4; DnEdge 1 2 3; DnEdge 2 1 (-7); DnFlow 0 2; DnFlow 1 2; DnFlow 2 0]
  = Ok [None; None; None; None; Some 3; Some 0; Some 3].
Proof. vm_compute. reflexivity. Qed.

(** 0 -> 1 -> 2 -> 0: what went from 0 to 2 can be sent back to 0 along the residual edges as well as along 2 -> 0. *)
Definition ex_net2 : list dn_op := [DnEdge 0 1 5; DnEdge 1 2 3; DnEdge 2 0 4; DnFlow 0 2; DnFlow 2 0; DnFlow 1 1; DnFlow 0 2; DnFlow 1 2].
Example C24_any_nonvacuous :
  Forall (fun o => match o with DnEdge _ _ c => 0 <= c <= it_max i32 | DnFlow _ _ => True end) ex_net2 /\
  snd <$> run (dn_step i32) (dn_new 3) ex_net2 = Ok [None; None; None; Some 3; Some 7; Some 0; Some 7; Some 0] /\
  snd <$> run (dn_step i8) (dn_new 3) [DnEdge 0 1 100; DnEdge 0 1 100; DnFlow 0 1] = Panic.
Proof.
  split; [|split; vm_compute; reflexivity].
  repeat (apply Forall_cons; split); try apply Forall_nil; auto; cbn; unfold it_max; cbn; lia.
Qed.

(** Two rounds on a graph with antiparallel and parallel edges and a loop: the second answer is the increment. *)
Definition ex_net : list dn_op :=
  [DnEdge 0 1 3; DnEdge 0 2 2; DnEdge 1 2 2; DnEdge 2 1 1; DnEdge 1 1 5; DnEdge 1 3 2; DnEdge 2 3 4; DnFlow 0 3; DnEdge 1 3 1; DnEdge 0 1 1; DnFlow 0 3].
Example C24_nonvacuous :
  Forall (fun o => match o with
                   | DnEdge u v c => (u < 4)%nat /\ (v < 4)%nat /\ 0 <= c <= it_max i32
                   | DnFlow s' t' => s' = 0%nat /\ t' = 3%nat end) ex_net /\
  (forall fs, feasible (dn_edges ex_net) 0 3 fs -> flow_value (dn_edges ex_net) 0 fs <= it_max i32) /\
  exists d, run (dn_step i32) (dn_new 4) ex_net = Ok (d, [None; None; None; None; None; None; None; Some 5; None; None; Some 1]).
Proof.
  split; [|split].
  - repeat (apply Forall_cons; split); try apply Forall_nil; auto; cbn; unfold it_max; cbn; lia.
  - intros fs Hf. rewrite (value_cutflow 4 (dn_edges ex_net) 0 3 fs (fun x => x =? 0)%nat); auto; [|cbn].
    + eapply Z.le_trans; [apply cutflow_le; apply Hf|]. vm_compute. congruence.
    + intros u v c. rewrite !elem_of_cons, elem_of_nil. intros H. repeat destruct H as [[= -> -> ->]|H]; try lia.
  - eexists. vm_compute. reflexivity.
Qed.
Close Scope Z_scope.
