(** Relations between several runs of scc (C119). *)
From stdpp Require Import relations.
From Verif Require Import Prelude IntModel SccModel SccSpec SccProof SccProps SatModel SccRelModel SccRelSpec SccRelProof.

(** The count is the number of components: the size of any system of representatives. *)
Theorem C119_count g : valid g -> exists cnt col, scc g = Ok (cnt, col) /\ forall k, components g k <-> k = cnt.
Proof. intros V. destruct (outcome_ex g V) as (cnt & col & O). exists cnt, col. split; [apply O|]. intros k. apply (components_count g cnt col k O). Qed.
Print Assumptions C119_count.

(** The order and the multiplicity of the edges do not matter for the partition. *)
Theorem C119_same_edges g h : valid g -> valid h -> length h = length g -> (forall u v, edge h u v <-> edge g u v) ->
  exists cnt colg colh, scc g = Ok (cnt, colg) /\ scc h = Ok (cnt, colh) /\ same_partition (fun u => u) colg colh.
Proof.
  intros Vg Vh L He. destruct (outcome_ex g Vg) as (cg & colg & Og), (outcome_ex h Vh) as (ch & colh & Oh).
  assert (M : forall u v, mutual g u v <-> mutual h u v) by (intros u v; split; intros [A B]; split; (eapply (reach_map _ _ (fun z => z)); [|eassumption]; intros; apply He; assumption)).
  assert (cg = ch) as ->.
  { apply Nat.le_antisymm; [apply (count_le (fun z => z) h g ch colh cg colg Oh Og)|apply (count_le (fun z => z) g h cg colg ch colh Og Oh)]; try (intros; lia); try (intros v Hv; exists v; split; [lia|apply mutual_refl]); intros u v _ _; apply M. }
  exists ch, colg, colh. split; [apply Og|]. split; [apply Oh|]. apply (same_of_mutual _ g h ch colg ch colh Og Oh). auto.
Qed.
Print Assumptions C119_same_edges.
(** The numbers of the components may differ. *)
Example C119_same_edges_nonvacuous : scc [[1; 2]; []; []] = Ok (3, [2; 0; 1]) /\ scc [[2; 1; 2]; []; []] = Ok (3, [2; 1; 0]) /\
  (forall u v, edge [[2; 1; 2]; []; []] u v <-> edge [[1; 2]; []; []] u v).
Proof.
  split; [vm_compute; reflexivity|]. split; [vm_compute; reflexivity|]. intros u v. unfold edge. destruct u as [|[|[|u]]]; cbn; split; intros (es & E & H); try discriminate E; injection E as <-; eexists; (split; [reflexivity|]); set_solver.
Qed.

(** Turning all edges round keeps the partition. *)
Theorem C119_reverse g h : valid g -> valid h -> length h = length g -> (forall u v, edge h u v <-> edge g v u) ->
  exists cnt colg colh, scc g = Ok (cnt, colg) /\ scc h = Ok (cnt, colh) /\ same_partition (fun u => u) colg colh.
Proof.
  intros Vg Vh L He. destruct (outcome_ex g Vg) as (cg & colg & Og), (outcome_ex h Vh) as (ch & colh & Oh). pose proof (reach_turn g h He) as R.
  assert (M : forall u v, mutual g u v <-> mutual h u v) by (intros u v; unfold mutual; rewrite !R; tauto).
  assert (cg = ch) as ->.
  { apply Nat.le_antisymm; [apply (count_le (fun z => z) h g ch colh cg colg Oh Og)|apply (count_le (fun z => z) g h cg colg ch colh Og Oh)]; try (intros; lia); try (intros v Hv; exists v; split; [lia|apply mutual_refl]); intros u v _ _; apply M. }
  exists ch, colg, colh. split; [apply Og|]. split; [apply Oh|]. apply (same_of_mutual _ g h ch colg ch colh Og Oh). auto.
Qed.
Print Assumptions C119_reverse.
Example C119_reverse_nonvacuous : scc [[1]; [0; 2]; [3]; []] = Ok (3, [2; 2; 1; 0]) /\ scc [[1]; [0]; [1]; [2]] = Ok (3, [0; 0; 1; 2]) /\
  forall u v, edge [[1]; [0]; [1]; [2]] u v <-> edge [[1]; [0; 2]; [3]; []] v u.
Proof.
  split; [vm_compute; reflexivity|]. split; [vm_compute; reflexivity|]. intros u v. unfold edge. split; intros (es & E & H).
  - destruct u as [|[|[|[|u]]]]; cbn in E; try discriminate E; injection E as <-; apply elem_of_list_singleton in H as ->; eexists; (split; [reflexivity|]); set_solver.
  - destruct v as [|[|[|[|v]]]]; cbn in E; try discriminate E; injection E as <-; repeat (apply elem_of_cons in H as [H|H]); try (inversion H; fail); subst u; eexists; (split; [reflexivity|]); set_solver.
Qed.

(** Renaming the vertices renames the partition. *)
Theorem C119_renamed f g h : valid g -> valid h -> renaming f g h ->
  exists cnt colg colh, scc g = Ok (cnt, colg) /\ scc h = Ok (cnt, colh) /\ same_partition f colg colh.
Proof.
  intros Vg Vh Rn. destruct (outcome_ex g Vg) as (cg & colg & Og), (outcome_ex h Vh) as (ch & colh & Oh). pose proof (renaming_valid f g h Rn Vg Vh) as R. destruct Rn as (L & Hf & Hinj & _).
  assert (M : forall u v, u < length g -> v < length g -> mutual g u v <-> mutual h (f u) (f v)) by (intros u v Hu Hv; unfold mutual; rewrite (R u v Hu Hv), (R v u Hv Hu); reflexivity).
  assert (cg = ch) as ->.
  { apply Nat.le_antisymm.
    - destruct (reps g cg colg Og) as (rs & <- & H1 & H2 & _). rewrite <- (map_length f rs). apply (pack h ch colh Oh).
      + intros u Hu. apply elem_of_list_fmap in Hu as (z & -> & Hz). rewrite L. apply Hf, H1, Hz.
      + intros i j u v Hi Hj Mh. apply list_lookup_fmap_Some in Hi as (x & Hx & ->). apply list_lookup_fmap_Some in Hj as (y & Hy & ->). apply (H2 i j x y Hx Hy).
        apply M; [apply H1; eapply elem_of_list_lookup_2; eauto|apply H1; eapply elem_of_list_lookup_2; eauto|exact Mh].
    - apply (count_le f g h cg colg ch colh Og Oh); [intros u Hu; rewrite L; apply Hf, Hu| |intros u v Hu Hv; apply M; assumption].
      intros v Hv. rewrite L in Hv. destruct (inj_surj (length g) f Hf Hinj v Hv) as (u & Hu & <-). exists u. split; [exact Hu|apply mutual_refl]. }
  exists ch, colg, colh. split; [apply Og|]. split; [apply Oh|]. apply (same_of_mutual f g h ch colg ch colh Og Oh). exact M.
Qed.
Print Assumptions C119_renamed.
Example C119_renamed_nonvacuous : renaming (fun u => 2 - u) [[1]; [0]; [0]] [[2]; [2]; [1]] /\ scc [[1]; [0]; [0]] = Ok (2, [0; 0; 1]) /\ scc [[2]; [2]; [1]] = Ok (2, [1; 0; 0]).
Proof.
  split; [|split; vm_compute; reflexivity]. split; [reflexivity|]. split; [cbn; intros; lia|]. split; [cbn; intros; lia|]. cbn [length]. intros u v Hu Hv. unfold edge.
  destruct u as [|[|[|u]]]; [| | |lia]; (destruct v as [|[|[|v]]]; [| | |lia]); cbn; (split; intros (es & E & H); injection E as <-; apply elem_of_list_singleton in H; try discriminate H; eexists; (split; [reflexivity|]); left).
Qed.

(** More edges can only merge components. *)
Theorem C119_more_edges g h : valid g -> valid h -> length h = length g -> (forall u v, edge g u v -> edge h u v) ->
  exists cg colg ch colh, scc g = Ok (cg, colg) /\ scc h = Ok (ch, colh) /\ ch <= cg /\
    forall u v a a' b', colg !! u = Some a -> colg !! v = Some a -> colh !! u = Some a' -> colh !! v = Some b' -> a' = b'.
Proof.
  intros Vg Vh L He. destruct (outcome_ex g Vg) as (cg & colg & Og), (outcome_ex h Vh) as (ch & colh & Oh).
  assert (M : forall u v, mutual g u v -> mutual h u v) by (intros u v [A B]; split; eapply (reach_map _ _ (fun z => z)); eassumption).
  exists cg, colg, ch, colh. split; [apply Og|]. split; [apply Oh|]. split.
  - apply (count_le (fun z => z) g h cg colg ch colh Og Oh); [intros; lia|intros v Hv; exists v; split; [lia|apply mutual_refl]|auto].
  - intros u v a a' b' Ha Hb Ha' Hb'. destruct Og as (_ & _ & _ & _ & Mg), Oh as (_ & _ & _ & _ & Mh). apply (Mh u v a' b' Ha' Hb'), M, (Mg u v a a Ha Hb). reflexivity.
Qed.
Print Assumptions C119_more_edges.

(** One more edge x -> y lowers the count iff y reaches x but x did not reach y. *)
Theorem C119_add_edge g h x y : valid g -> valid h -> length h = length g -> x < length g -> y < length g ->
  (forall u v, edge h u v <-> edge g u v \/ (u = x /\ v = y)) ->
  exists cg colg ch colh, scc g = Ok (cg, colg) /\ scc h = Ok (ch, colh) /\ ch <= cg /\ (ch < cg <-> reach g y x /\ ~ reach g x y).
Proof.
  intros Vg Vh L Hx Hy He. destruct (outcome_ex g Vg) as (cg & colg & Og), (outcome_ex h Vh) as (ch & colh & Oh).
  exists cg, colg, ch, colh. split; [apply Og|]. split; [apply Oh|]. split.
  - apply (count_le (fun z => z) g h cg colg ch colh Og Oh); [intros; lia|intros v Hv; exists v; split; [lia|apply mutual_refl]|].
    intros u v _ _ [A B]. split; apply (reach_add g h x y He); auto.
  - apply (add_edge_count g h x y cg colg ch colh); assumption.
Qed.
Print Assumptions C119_add_edge.
(** 0 -> 1 -> 2 -> 3: the edge 2 -> 0 merges three components, the edge 0 -> 2 none. *)
Example C119_add_edge_nonvacuous : scc [[1]; [2]; [3]; []] = Ok (4, [3; 2; 1; 0]) /\ scc [[1]; [2]; [3; 0]; []] = Ok (2, [1; 1; 1; 0]) /\ scc [[1; 2]; [2]; [3]; []] = Ok (4, [3; 2; 1; 0]) /\
  forall u v, edge [[1]; [2]; [3; 0]; []] u v <-> edge [[1]; [2]; [3]; []] u v \/ (u = 2 /\ v = 0).
Proof.
  split; [vm_compute; reflexivity|]. split; [vm_compute; reflexivity|]. split; [vm_compute; reflexivity|]. intros u v. unfold edge. destruct u as [|[|[|[|u]]]]; cbn.
  all: split; [intros (es & E & H); try discriminate E; injection E as <-|intros [(es & E & H)|[H1 H2]]; [try discriminate E; injection E as <-|]]; try discriminate.
  all: try (left; eexists; split; [reflexivity|]; assumption); try (eexists; split; [reflexivity|]; set_solver).
  apply elem_of_cons in H as [->|H]; [left; eexists; split; [reflexivity|left]|]. apply elem_of_list_singleton in H as ->. right. auto.
Qed.

(** Two graphs side by side: the counts add up and the partitions stay. *)
Theorem C119_beside g h : valid g -> valid h -> (Z.of_nat (length g + length h) <= 2 ^ 31 - 1)%Z ->
  exists cg colg ch colh colu, scc g = Ok (cg, colg) /\ scc h = Ok (ch, colh) /\ scc (beside g h) = Ok (cg + ch, colu) /\
    same_partition (fun u => u) colg colu /\ same_partition (fun u => length g + u) colh colu /\
    forall u v a, u < length g -> colu !! u = Some a -> colu !! (length g + v) <> Some a.
Proof.
  intros Vg Vh Hn. assert (Vu : valid (beside g h)) by (split; [apply beside_edges; assumption|rewrite beside_length; exact Hn]).
  destruct (outcome_ex g Vg) as (cg & colg & Og), (outcome_ex h Vh) as (ch & colh & Oh), (outcome_ex _ Vu) as (cu & colu & Ou).
  pose proof (beside_count g h cg colg ch colh cu colu Vg Vh Og Oh Ou) as ->. exists cg, colg, ch, colh, colu. split; [apply Og|]. split; [apply Oh|]. split; [apply Ou|]. split_and!.
  - apply (same_of_mutual _ g (beside g h) cg colg _ colu Og Ou). intros u v Hu Hv. apply beside_mutual_left; assumption.
  - apply (same_of_mutual _ h (beside g h) ch colh _ colu Oh Ou). intros u v Hu Hv. apply beside_mutual_right; assumption.
  - intros u v a Hu Ha Hb. destruct Ou as (_ & _ & _ & _ & M). assert (R : reach (beside g h) u (length g + v)) by (apply (M u (length g + v) a a Ha Hb); reflexivity).
    apply beside_cross in R; [lia|exact Vg|exact Hu].
Qed.
Print Assumptions C119_beside.
Example C119_beside_nonvacuous : beside [[1]; [0]; [0]] [[1]; []] = [[1]; [0]; [0]; [4]; []] /\ scc [[1]; [0]; [0]] = Ok (2, [0; 0; 1]) /\ scc [[1]; []] = Ok (2, [1; 0]) /\
  scc (beside [[1]; [0]; [0]] [[1]; []]) = Ok (4, [0; 0; 1; 3; 2]).
Proof. split_and!; vm_compute; reflexivity. Qed.

(** If no edge goes to a larger vertex, every vertex is its own component and keeps its number. *)
Theorem C119_downward g : (Z.of_nat (length g) <= 2 ^ 31 - 1)%Z -> (forall u v, edge g u v -> v <= u) -> scc g = Ok (length g, seq 0 (length g)).
Proof. apply down_scc. Qed.
Print Assumptions C119_downward.

(** The graph of the components has an edge a -> b iff some edge leads from component a to component b; scc finds its vertices in
    separate components, with the numbers they have. *)
Theorem C119_condense g : valid g -> exists cnt col r, scc g = Ok (cnt, col) /\ condense g = Ok r /\ length r = cnt /\
  (forall a b, edge r a b <-> a <> b /\ exists u v, edge g u v /\ col !! u = Some a /\ col !! v = Some b) /\ scc r = Ok (cnt, seq 0 cnt).
Proof.
  intros V. destruct (condense_ok g V) as (cnt & col & r & E1 & E2 & L & He & Hd). exists cnt, col, r. split; [exact E1|]. split; [exact E2|]. split; [exact L|]. split; [exact He|].
  rewrite <- L. apply down_scc; [|exact Hd]. destruct (outcome_ex g V) as (cnt' & col' & O). pose proof (reps g cnt' col' O) as (rs & Lr & H1 & H2 & _). destruct O as (E & Lc & _).
  rewrite E in E1. injection E1 as -> ->. destruct V as [_ V]. enough (cnt <= length g) by lia. rewrite <- Lr, <- (seq_length (length g) 0). apply List.NoDup_incl_length.
  - apply NoDup_ListNoDup, NoDup_alt. intros i j u Hi Hj. apply (H2 i j u u Hi Hj), mutual_refl.
  - intros u Hu. apply elem_of_list_In in Hu. apply in_seq. specialize (H1 u Hu). lia.
Qed.
Print Assumptions C119_condense.
Example C119_condense_nonvacuous : condense ex_g = Ok [[]; [0]; [1; 1]; [2; 0]] /\ scc [[]; [0]; [1; 1]; [2; 0]] = Ok (4, [0; 1; 2; 3]).
Proof. split; vm_compute; reflexivity. Qed.
