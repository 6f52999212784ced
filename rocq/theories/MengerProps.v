(** Property theorems for src/graph/max_flow.rs: the answer of get_max_flow as a number of paths (C114). *)
From stdpp Require Import relations.
From Verif Require Import Prelude IntModel DinicModel DinicSpec DinicProof DinicProps MengerSpec MengerProof.
Open Scope Z_scope.

Local Notation build es n := (rfor es (fun (x : fedge) d => dn_add_edge d x.1.1 x.1.2 x.2) (dn_new n)).

(** C114: the answer is the largest number of paths from s to t that together respect the capacities, and the smallest total
    capacity of a set of edges that meets every path from s to t. *)
Theorem C114_paths : forall T n s t (es : list fedge) d d' v,
  T ∈ prim_types -> Z.of_nat n <= 2 ^ 31 - 1 -> (s < n)%nat -> (t < n)%nat -> s <> t ->
  Forall (fun x => (x.1.1 < n)%nat /\ (x.1.2 < n)%nat /\ 0 <= x.2 <= it_max T) es ->
  build es n = Ok d -> dn_max_flow T d s t = Ok (d', v) ->
  (exists ps, packing es s t ps /\ Z.of_nat (length ps) = v) /\
  (forall ps, packing es s t ps -> Z.of_nat (length ps) <= v) /\
  (exists C, NoDup C /\ separates es s t C /\ capacity es C = v) /\
  (forall C, separates es s t C -> v <= capacity es C).
Proof.
  intros T n s t es d0 d'0 v0 HT Hn Hs Ht Hst Hes Hd0 Hv0. destruct (prim_bounds T HT) as [H1 H2].
  destruct (build_ok T n es Hes) as (d & E & Hd & Hnet). rewrite E in Hd0. injection Hd0 as <-.
  assert (Hcap : forall i u v c, es !! i = Some (u, v, c) -> 0 <= c).
  { intros i u v c Hi. rewrite Forall_forall in Hes. destruct (Hes (u, v, c)) as (_ & _ & Hc); [eapply elem_of_list_lookup_2, Hi|]. cbn in Hc. lia. }
  assert (Hin : forall u v c, (u, v, c) ∈ es -> (u < n)%nat /\ (v < n)%nat).
  { intros u v c Hi. rewrite Forall_forall in Hes. destruct (Hes (u, v, c) Hi) as (A & B & _). auto. }
  destruct (max_flow_total T n es d s t 0 H1 H2 Hn) as [[E' _]|(d' & v & E' & _ & _ & _ & _ & M1 & M2)]; auto.
  { exact (build_cap T n es H1 Hes). }
  { congruence. }
  rewrite E' in Hv0. injection Hv0 as -> ->. rewrite Z.add_0_l in M1, M2.
  destruct M1 as [(fs & Hf & Hv) Hmax]. destruct M2 as [(X & Xs & Xt & HX) Hmin].
  assert (Hps : exists ps, packing es s t ps /\ Z.of_nat (length ps) = v0).
  { assert (0 <= v0).
    { specialize (Hmax (replicate (length es) 0)). enough (feasible es s t (replicate (length es) 0) /\ flow_value es s (replicate (length es) 0) = 0) as [A B] by (specialize (Hmax A); lia).
      assert (Hz : forall x, outflow es (replicate (length es) 0) x = 0 /\ inflow es (replicate (length es) 0) x = 0).
      { intros x. clear. induction es as [|[[u w] c] es IH]; [auto|]. cbn [length replicate outflow inflow]. destruct IH as [-> ->]. destruct (u =? x)%nat, (w =? x)%nat; auto. }
      split; [split|].
      - apply Forall2_same_length_lookup_2; [rewrite replicate_length; reflexivity|]. intros i [[u w] c] f Hi [-> _]%lookup_replicate. cbn. specialize (Hcap i u w c Hi). lia.
      - intros x _ _. destruct (Hz x). lia.
      - unfold flow_value. destruct (Hz s). lia. }
    destruct (flow_paths n es s t Hin Hs Hst (Z.to_nat v0) fs Hf ltac:(lia)) as (ps & Hl & Hps & Hocc). exists ps. split; [split; [exact Hps|]|lia].
    intros i u w c Hi. destruct Hf as [Hb _]. destruct (Forall2_lookup_l _ _ _ _ _ Hb Hi) as (f & Hfi & Hle). specialize (Hocc i f Hfi). cbn in Hle. lia. }
  split; [exact Hps|]. split.
  { intros ps H. destruct (paths_flow es s t ps Hst Hcap H) as (fs' & Hf' & <-). apply Hmax. exact Hf'. }
  split.
  { exists (leaving 0 es X). split; [apply leaving_nodup|]. split; [apply leaving_separates; assumption|]. rewrite (leaving_cap es es X 0%nat); [exact HX|reflexivity]. }
  intros C HC. destruct Hps as (ps & Hp & <-). apply (packing_capacity es s t ps C Hcap Hp HC).
Qed.
Print Assumptions C114_paths.

(** C114, Menger's theorem for the edges of a graph with unit capacities: the answer is the largest number of paths that share no edge and
    the smallest number of edges meeting all paths. *)
Theorem C114_menger : forall T n s t (es : list fedge),
  T ∈ prim_types -> Z.of_nat n <= 2 ^ 31 - 1 -> (s < n)%nat -> (t < n)%nat -> s <> t ->
  Forall (fun x => (x.1.1 < n)%nat /\ (x.1.2 < n)%nat /\ x.2 = 1) es -> Z.of_nat (length es) <= it_max T ->
  exists d d' k, build es n = Ok d /\ dn_max_flow T d s t = Ok (d', Z.of_nat k) /\
    (exists ps, length ps = k /\ Forall (trail es s t) ps /\ NoDup (concat ps)) /\
    (forall ps, Forall (trail es s t) ps -> NoDup (concat ps) -> (length ps <= k)%nat) /\
    (exists C, length C = k /\ NoDup C /\ separates es s t C) /\
    (forall C, separates es s t C -> (k <= length C)%nat).
Proof.
  intros T n s t es HT Hn Hs Ht Hst Hes Hlen. destruct (prim_bounds T HT) as [H1 H2].
  assert (Hes' : Forall (fun x : fedge => (x.1.1 < n)%nat /\ (x.1.2 < n)%nat /\ 0 <= x.2 <= it_max T) es).
  { rewrite Forall_forall in Hes |- *. intros e He. destruct (Hes e He) as (A & B & ->). split_and!; auto; [lia|].
    destruct es; [inversion He|]. cbn [length] in Hlen. lia. }
  assert (Hin : forall u v c, (u, v, c) ∈ es -> (u < n)%nat /\ (v < n)%nat).
  { intros u v c Hi. rewrite Forall_forall in Hes. destruct (Hes (u, v, c) Hi) as (A & B & _). auto. }
  assert (Hone : forall i u v c, es !! i = Some (u, v, c) -> c = 1).
  { intros i u v c Hi. rewrite Forall_forall in Hes. destruct (Hes (u, v, c)) as (_ & _ & Hc); [eapply elem_of_list_lookup_2, Hi|]. exact Hc. }
  destruct (C24_max_flow T n s t es HT Hn Hs Ht Hst Hes') as (d & d' & v & Hd & Hv & _ & _).
  { intros fs Hf. rewrite (value_cutflow n es s t fs (fun x => (x =? s)%nat) Hin Hs Hf); [|apply Nat.eqb_refl|apply Nat.eqb_neq; auto].
    destruct Hf as [Hb _]. pose proof (cutflow_le es fs (fun x => (x =? s)%nat) Hb). assert (cut_cap es (fun x => (x =? s)%nat) <= Z.of_nat (length es)); [|lia].
    clear -Hes. induction Hes as [|[[u w] c] es (_ & _ & Hc) _ IH]; [reflexivity|]. cbn [cut_cap length]. cbn in Hc. destruct ((u =? s)%nat && negb (w =? s)%nat); lia. }
  destruct (C114_paths T n s t es d d' v HT Hn Hs Ht Hst Hes' Hd Hv) as ((ps & Hps & Hl) & Hmax & (C & HN & HC & Hcap) & Hmin).
  assert (Hvalid : forall ps, Forall (trail es s t) ps -> forall i, i ∈ concat ps -> exists u v c, es !! i = Some (u, v, c)).
  { intros qs Hqs i Hi. apply elem_of_list_In, in_concat in Hi as (p & Hp & Hi). apply elem_of_list_In in Hp. apply elem_of_list_In in Hi.
    rewrite Forall_forall in Hqs. specialize (Hqs p Hp). clear -Hqs Hi. revert s Hqs. induction p as [|j p IH]; intros s Hqs; [inversion Hi|]. cbn [trail] in Hqs.
    destruct Hqs as (w & c & Hj & Hqs). apply elem_of_cons in Hi as [->|Hi]; [eauto|]. exact (IH Hi w Hqs). }
  assert (Hcl : forall C, capacity es C <= Z.of_nat (length C)).
  { intros D. induction D as [|i D IH]; cbn [capacity length]; [lia|]. destruct (es !! i) as [[[u w] c]|] eqn:Hi; [rewrite (Hone i u w c Hi); cbn|]; lia. }
  exists d, d', (length ps). rewrite Hl. split; [exact Hd|]. split; [exact Hv|]. split_and!.
  - exists ps. split; [reflexivity|]. destruct Hps as [A B]. split; [exact A|]. apply NoDup_ListNoDup, (NoDup_count_occ Nat.eq_dec). intros i.
    destruct (decide (i ∈ concat ps)) as [Hi|Hi].
    + destruct (Hvalid ps A i Hi) as (u & w & c & E). specialize (B i u w c E). rewrite (Hone i u w c E) in B. lia.
    + rewrite (proj1 (count_occ_not_In Nat.eq_dec (concat ps) i)); [lia|]. rewrite <- elem_of_list_In. exact Hi.
  - intros qs Hqs N. specialize (Hmax qs). apply NoDup_ListNoDup in N. enough (packing es s t qs) as Hq by (specialize (Hmax Hq); lia).
    split; [exact Hqs|]. intros i u w c E. specialize (proj1 (NoDup_count_occ Nat.eq_dec (concat qs)) N i) as Hi. rewrite (Hone i u w c E). lia.
  - (* every edge of the cut set is an edge of the graph *)
    exists (filter (fun i => (i < length es)%nat) C). assert (HN' : NoDup (filter (fun i => (i < length es)%nat) C)) by (apply NoDup_filter; exact HN).
    split; [|split; [exact HN'|]].
    + assert (E : capacity es C = Z.of_nat (length (filter (fun i => (i < length es)%nat) C))); [|lia]. clear -Hone. induction C as [|i C IH]; [reflexivity|]. cbn [capacity].
      rewrite filter_cons. destruct (decide (i < length es)%nat) as [Hi|Hi].
      * destruct (lookup_lt_is_Some_2 es i Hi) as [[[u w] c] E]. rewrite E, (Hone i u w c E). cbn [length snd]. lia.
      * rewrite lookup_ge_None_2 by lia. lia.
    + intros p Hp. destruct (HC p Hp) as (i & Hip & HiC). exists i. split; [exact Hip|]. apply elem_of_list_filter. split; [|exact HiC].
      destruct (Hvalid [p]) with (i := i) as (u & w & c & E); [repeat constructor; exact Hp|cbn; rewrite app_nil_r; exact Hip|]. apply lookup_lt_Some in E. exact E.
  - intros D HD. specialize (Hmin D HD). specialize (Hcl D). lia.
Qed.
Print Assumptions C114_menger.

(** Two paths that share no edge in a graph where a third would have to; the two edges into 4 meet all paths. *)
Definition ex_menger : list fedge := map (fun e => (e, 1)) [(0, 1); (0, 2); (0, 3); (1, 2); (2, 4); (3, 4); (1, 3); (4, 0)]%nat.
Example C114_nonvacuous :
  Forall (fun x : fedge => (x.1.1 < 5)%nat /\ (x.1.2 < 5)%nat /\ x.2 = 1) ex_menger /\
  (fmap snd (d ← build ex_menger 5%nat; dn_max_flow i32 d 0 4)) = Ok 2 /\
  Forall (trail ex_menger 0 4) [[0; 3; 4]; [2; 5]]%nat /\ NoDup (concat [[0; 3; 4]; [2; 5]])%nat.
Proof.
  split; [cbn; repeat constructor|]. split; [vm_compute; reflexivity|]. split; [|cbn; repeat (apply NoDup_cons; split; [set_solver|]); apply NoDup_nil_2].
  repeat (apply Forall_cons; split; [cbn; eauto 15|]). constructor.
Qed.
Close Scope Z_scope.
