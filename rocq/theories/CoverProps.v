(** C103: what the size returned by BipartiteMatching::solve means, and its agreement with Dinic. *)
From Verif Require Import Prelude ArraySpec IntModel MatchingModel MatchingSpec MatchingProof DinicModel DinicSpec DinicProof DinicProps CoverSpec CoverProof.

Lemma solve_meaning n m ops b outs b' k : run bm_step (bm_new n m) ops = Ok (b, outs) -> bm_solve b = Ok (b', k) ->
  max_matching_size (edges_of ops) k /\ forall u v, (u, v) ∈ edges_of ops -> u < n.
Proof.
  intros Hrun Hs. destruct (bm_history n m ops [] (bm_new n m) (bm_new_inv n m)) as [_ B].
  specialize (B b outs Hrun). cbn [app] in B. destruct B as [B1 B3 B4 B5]. destruct b as [g l r vis]. cbn [bm_g bm_l bm_r bm_vis] in *.
  destruct (bm_solve_ok n m g B1 _ B3 l r vis B4 B5) as [[E' _]|(l' & r' & vis' & E' & Hv' & Hok' & HM & Hmax)]; [congruence|].
  rewrite E' in Hs. injection Hs as <- <-. split; [exact Hmax|].
  intros u v (es & Hu & _)%B3. apply lookup_lt_Some in Hu. lia.
Qed.

(** Kőnig: after any history, solve returns the size of the smallest vertex cover of the edges added. *)
Theorem C103_cover : forall n m ops b outs b' k,
  run bm_step (bm_new n m) ops = Ok (b, outs) -> bm_solve b = Ok (b', k) -> min_cover_size (edges_of ops) k.
Proof. intros n m ops b outs b' k Hrun Hs. apply koenig. apply (solve_meaning n m ops b outs b' k Hrun Hs). Qed.
Print Assumptions C103_cover.

(** The left vertices that stay single: as many as the largest amount by which a set of left vertices exceeds its neighbours. *)
Theorem C103_deficiency : forall n m ops b outs b' k,
  run bm_step (bm_new n m) ops = Ok (b, outs) -> bm_solve b = Ok (b', k) ->
  (forall A B, left_set n A -> neighbours_in (edges_of ops) A B -> length A + k <= n + length B) /\
  exists A B, left_set n A /\ neighbours_in (edges_of ops) A B /\ length A + k = n + length B.
Proof.
  intros n m ops b outs b' k Hrun Hs. destruct (solve_meaning n m ops b outs b' k Hrun Hs) as [Hk HE].
  split; [apply (deficiency_le n _ k HE Hk)|apply (deficiency_ex n _ k HE Hk)].
Qed.
Print Assumptions C103_deficiency.

(** Hall: solve matches every left vertex if and only if every set of left vertices has at least as many neighbours. *)
Theorem C103_hall : forall n m ops b outs b' k,
  run bm_step (bm_new n m) ops = Ok (b, outs) -> bm_solve b = Ok (b', k) -> k = n <-> hall n (edges_of ops).
Proof.
  intros n m ops b outs b' k Hrun Hs. destruct (solve_meaning n m ops b outs b' k Hrun Hs) as [Hk HE]. apply (hall_iff n _ k HE Hk).
Qed.
Print Assumptions C103_hall.

(** n + m - solve() is the size of the largest independent set. *)
Theorem C103_independent : forall n m ops b outs b' k,
  run bm_step (bm_new n m) ops = Ok (b, outs) -> bm_solve b = Ok (b', k) -> (forall u v, (u, v) ∈ edges_of ops -> v < m) ->
  (forall A B, independent n m (edges_of ops) A B -> length A + length B + k <= n + m) /\
  exists A B, independent n m (edges_of ops) A B /\ length A + length B + k = n + m.
Proof.
  intros n m ops b outs b' k Hrun Hs Hr. destruct (solve_meaning n m ops b outs b' k Hrun Hs) as [Hk HE].
  split; [apply (independent_le n _ k HE Hk m Hr)|apply (independent_ex n _ k HE Hk m Hr)].
Qed.
Print Assumptions C103_independent.

Open Scope Z_scope.

(** BipartiteMatching and Dinic on the unit network of the same graph, its edges added in any order and with any capacities of at
    least 1 between the sides: get_max_flow returns what solve returns, or panics if that number is too large for the type. *)
Theorem C103_flow : forall T n m (E : list (nat * nat * Z)) es,
  T ∈ prim_types -> Z.of_nat (n + m + 2) <= 2 ^ 31 - 1 ->
  Forall (fun e => (e.1.1 < n)%nat /\ (e.1.2 < m)%nat /\ 1 <= e.2 <= it_max T) E -> es ≡ₚ unit_net n m E ->
  exists b outs b' k d,
    run bm_step (bm_new n m) (map (fun e => BmEdge e.1.1 e.1.2) E) = Ok (b, outs) /\ bm_solve b = Ok (b', k) /\
    rfor es (fun x d => dn_add_edge d x.1.1 x.1.2 x.2) (dn_new (n + m + 2)) = Ok d /\
    snd <$> dn_max_flow T d (n + m) (n + m + 1) = if Z.of_nat k <=? it_max T then Ok (Z.of_nat k) else Panic.
Proof.
  intros T n m E es HT Hn HE Hp. destruct (prim_bounds T HT) as [H1 H2].
  assert (map (fun e => BmEdge e.1.1 e.1.2) E = map (fun e => BmEdge e.1 e.2) (map fst E)) as Eops by (rewrite map_map; reflexivity).
  assert (Forall (valid_op n m) (map (fun e => BmEdge e.1.1 e.1.2) E)) as Hval.
  { apply Forall_fmap. eapply Forall_impl; [exact HE|]. intros [[x y] c] H. cbn in *. tauto. }
  destruct (bm_history n m (map (fun e => BmEdge e.1.1 e.1.2) E) [] (bm_new n m) (bm_new_inv n m)) as [Ha B].
  apply bm_allowed_valid in Ha as (outs & E' & _); [|exact Hval|intros u v Hv; inversion Hv].
  destruct (run bm_step (bm_new n m) (map (fun e => BmEdge e.1.1 e.1.2) E)) as [[b outs']| |] eqn:Erun; cbn in E'; try discriminate.
  pose proof (B b outs' eq_refl) as Hb. rewrite Eops, edges_of_map in Hb. cbn [app] in Hb. destruct Hb as [B1 B3 B4 B5].
  assert (forall u v, (u, v) ∈ map fst E -> (v < m)%nat) as Hr.
  { intros u v ([[u' v'] c] & [= -> ->] & He)%elem_of_list_fmap. rewrite Forall_forall in HE. apply HE in He. cbn in He. tauto. }
  destruct (bm_solve_ok n m (bm_g b) B1 _ B3 (bm_l b) (bm_r b) (bm_vis b) B4 B5) as [[_ (u & xs & v & Hu & Hv & Hbad)]|(l' & r' & vis' & Es & _ & _ & _ & Hk)].
  { specialize (Hr u v ltac:(apply B3; eauto)). lia. }
  destruct b as [g l r vis]. cbn [bm_g bm_l bm_r bm_vis] in *.
  set (k := length (matched l')) in *. clearbody k.
  assert (Forall (fun e => (e.1.1 < n)%nat /\ (e.1.2 < m)%nat /\ 1 <= e.2) E) as HE1.
  { eapply Forall_impl; [exact HE|]. cbn. intros. lia. }
  assert (Forall (fun x => (x.1.1 < n + m + 2)%nat /\ (x.1.2 < n + m + 2)%nat /\ 0 <= x.2 <= it_max T) es) as Hes.
  { rewrite Forall_forall. intros x Hx. rewrite Hp in Hx. pose proof (net_range n m E HE1 x Hx) as (? & ? & ?). split_and!; try assumption.
    unfold unit_net in Hx. rewrite !elem_of_app in Hx. destruct Hx as [Hx|[Hx|Hx]]; apply elem_of_list_fmap in Hx as (y & -> & Hy); cbn; try lia.
    rewrite Forall_forall in HE. apply HE in Hy. lia. }
  destruct (build_ok T (n + m + 2) es Hes) as (d & Ed & Hd & Hnet).
  exists (BM g l r vis), outs', (BM g l' r' vis'), k, d. split; [reflexivity|]. split; [exact Es|]. split; [exact Ed|].
  destruct (max_flow_gen T (n + m + 2) es d (n + m) (n + m + 1) H1 H2 Hn (build_cap T (n + m + 2) es H1 Hes) Hd ltac:(lia) ltac:(lia) ltac:(lia))
    as [[E1 _]|(d1 & v1 & E1 & Hv1 & _)].
  - rewrite E1. destruct (max_flow_total T (n + m + 2) es d (n + m) (n + m + 1) 0 H1 H2 Hn (build_cap T (n + m + 2) es H1 Hes) Hd)
      as [[_ (fs & Hf & Hx)]|(d2 & v2 & E2 & _)]; try lia; try congruence; try (intros; apply Hnet).
    pose proof (net_flow n m E HE1 es k fs Hp Hk Hf). destruct (Z.leb_spec (Z.of_nat k) (it_max T)); [lia|reflexivity].
  - destruct (max_flow_total T (n + m + 2) es d (n + m) (n + m + 1) 0 H1 H2 Hn (build_cap T (n + m + 2) es H1 Hes) Hd)
      as [[E2 _]|(d2 & v2 & E2 & _ & _ & _ & _ & _ & Hcut)]; try lia; try congruence; try (intros; apply Hnet).
    rewrite E1 in E2. injection E2 as <- <-. rewrite E1. apply (net_cut n m E HE1 es k _ Hp Hk) in Hcut. cbn.
      destruct (Z.leb_spec (Z.of_nat k) (it_max T)); [f_equal; lia|lia].
Qed.
Print Assumptions C103_flow.

Close Scope Z_scope.

(** Three left and three right vertices; the left vertices 1 and 2 have only the neighbour 0, so one stays single. *)
Definition ex_graph : list (nat * nat * Z) := [(0, 0, 1%Z); (0, 1, 5%Z); (1, 0, 2%Z); (0, 2, 1%Z); (2, 0, 7%Z)].
Example C103_nonvacuous :
  (exists b outs b', run bm_step (bm_new 3 3) (map (fun e => BmEdge e.1.1 e.1.2) ex_graph) = Ok (b, outs) /\ bm_solve b = Ok (b', 2)) /\
  covers (map fst ex_graph) [0] [0] /\ ~ hall 3 (map fst ex_graph) /\
  (exists d, rfor (unit_net 3 3 ex_graph) (fun x d => dn_add_edge d x.1.1 x.1.2 x.2) (dn_new 8) = Ok d /\
     snd <$> dn_max_flow i32 d 6 7 = Ok 2%Z).
Proof.
  split; [eexists _, _, _; split; [vm_compute; reflexivity|vm_compute; reflexivity]|]. split; [|split].
  - intros u v H. cbn in H. rewrite !elem_of_cons in H. rewrite !elem_of_list_singleton. destruct H as [H|[H|[H|[H|[H|H]]]]]; try (injection H as -> ->; auto). inversion H.
  - intros H. specialize (H [1; 2] [0]). assert (2 <= 1); [|lia]. apply H.
    + split; [apply NoDup_cons; split; [rewrite elem_of_list_singleton; discriminate|apply NoDup_singleton]|].
      intros u Hu. rewrite !elem_of_cons in Hu. destruct Hu as [->|[->|Hu]]; [lia|lia|inversion Hu].
    + intros u v Hu Huv. cbn in Huv. rewrite !elem_of_cons in Huv. rewrite !elem_of_cons in Hu. apply elem_of_list_singleton.
      destruct Huv as [Hv|[Hv|[Hv|[Hv|[Hv|Hv]]]]]; try inversion Hv; subst; try reflexivity; destruct Hu as [Hu|[Hu|Hu]]; try discriminate; inversion Hu.
  - eexists. split; [vm_compute; reflexivity|vm_compute; reflexivity].
Qed.
