(** C92, C93: steps and nesting of the constructors of BinaryLifting and HLD. *)
From Verif Require Import Prelude UtilModel UtilProof Eff TreeSpec TreeProof LiftModel LiftProof LiftProps HldModel HldTree GraphWorkModel GraphWorkSpec AhoWorkSpec AhoWorkProof TreeWorkModel TreeWorkSpec TreeWorkProof TreeNestProof.

Section tree.
  Context (g : list (list nat)) (root : nat) (par dep : nat -> nat) (Ht : rtree g root par dep).
  Notation n := (length g).
  (** What the first search of HLD leaves *)
  Lemma hl_first parent : vset (replicate n 0) root root = Ok parent ->
    parent !! root = Some (par root) /\
    exists h1 hv, dfs1 (S n) g root (HL parent (replicate n 0) (replicate n None) (replicate n 0) (replicate n 0) (replicate n 0)) = Ok (h1, sz g par dep root) /\
      (forall v, v < n -> h_parent h1 !! v = Some (par v)) /\ (forall v, v < n -> h_heavy h1 !! v = Some (hv v)) /\ (forall v c, v < n -> hv v = Some c -> child g root par v c).
  Proof.
    intros E. pose proof (t_root _ _ _ _ Ht) as Hr. rewrite vset_ok in E by (rewrite replicate_length; exact Hr). injection E as <-.
    assert (<[root:=root]> (replicate n 0) !! root = Some (par root)) as Hp.
    { rewrite list_lookup_insert by (rewrite replicate_length; exact Hr). rewrite (t_root_par _ _ _ _ Ht). reflexivity. }
    split; [exact Hp|]. set (h0 := HL _ _ _ _ _ _).
    destruct (dfs1_ok g root par dep Ht (S n) root h0) as (h1 & E & W1 & _ & F1); [lia|exact Hr| |exact Hp| | |].
    - split; cbn; rewrite ?insert_length, ?replicate_length; reflexivity.
    - cbn. rewrite (t_root_dep _ _ _ _ Ht). apply lookup_replicate. auto.
    - intros v Hv _. cbn. apply lookup_replicate. auto.
    - assert (forall v, v < n -> anc par root v) as HA by (intros v Hv; apply (anc_root _ _ _ _ Ht); exact Hv).
      exists h1, (fun v => default None (h_heavy h1 !! v)). split; [exact E|]. split; [|split].
      + intros v Hv. apply F1; auto.
      + intros v Hv. destruct (F1 v Hv (HA v Hv)) as (_ & _ & hc & Ehc & _). rewrite Ehc. reflexivity.
      + intros v c Hv. destruct (F1 v Hv (HA v Hv)) as (_ & _ & hc & Ehc & H). rewrite Ehc. cbn. intros ->. apply H.
  Qed.
  Lemma closer_all : closer_than g root (S n).
  Proof. apply (closer_iff _ _ _ _ Ht). intros v Hv _. pose proof (dep_lt _ _ _ _ Ht v Hv). lia. Qed.
End tree.

(** C92, BinaryLifting::from on a tree of n vertices with level = floor(log2 n) + 1: it fills the table of n * level jumps and the three vectors,
    and its search takes exactly (level + 3) n - 2 steps. *)
Theorem C92_from : forall g root, is_tree g -> root < length g -> (Z.of_nat (length g) < 2 ^ 64)%Z ->
  exists b, bl_from g root = Ok b /\ 1 <= bl_level b /\ 2 ^ (bl_level b - 1) <= length g < 2 ^ bl_level b /\
    costs (bl_fromW g root) (bl_from g root) (fun _ => length g * bl_level b + 3 * length g + ((bl_level b + 3) * length g - 2)).
Proof.
  intros g root T Hr Hn. destruct (tree_rtree g T root Hr) as (par & dep & R). destruct (from_ok g root par dep R Hn) as (b & lv & E & H1 & H2 & B). exists b. split; [exact E|].
  set (level := Z.to_nat (Z.log2 (Z.of_nat (length g))) + 1). unfold bl_from in E. rewrite lg_spec in E by lia. cbn [mbind res_bind] in E. fold level in E.
  destruct (bl_costs g root par dep R level ltac:(unfold level; lia) (S (length g)) root (BL level (replicate (length g) (replicate level 0)) (replicate (length g) 0) (replicate (length g) 0) (replicate (length g) 0), 0) Hr eq_refl) as [C L].
  rewrite (t_root_par _ _ _ _ R), (sz_root _ _ _ _ R) in *. apply rbind_ok_inv in E as (st & Est & E). injection E as <-. rewrite (L st Est).
  split; [unfold level; lia|]. split.
  - unfold level. rewrite Nat.add_sub. pose proof (Z.log2_spec (Z.of_nat (length g)) ltac:(lia)) as [L1 L2]. pose proof (Z.log2_nonneg (Z.of_nat (length g))) as L0. split; [apply Nat2Z.inj_le|apply Nat2Z.inj_lt]; rewrite Nat2Z.inj_pow.
    + rewrite Z2Nat.id by exact L0. exact L1.
    + rewrite Nat2Z.inj_add, Z2Nat.id by exact L0. exact L2.
  - unfold bl_fromW, bl_from. rewrite lg_spec by lia. fold level. apply costs_lift_bind. intros l [= <-]. fold level.
    eapply (costs_ticks _ _ _ _ (fun _ => (level + 3) * length g - 2)); [|intros; reflexivity]. eapply costs_bind; [exact C|]. intros st' _. eexists. split; [apply costs_ret|].
    intros. unfold less. rewrite Nat.eqb_refl. lia.
Qed.
Print Assumptions C92_from.

(** C92: lca and dis take at most level turns of their loop, whatever the tables hold. *)
Theorem C92_lca : forall b u v, within (bl_lcaW b u v) (bl_lca b u v) (bl_level b) /\ within (bl_disW b u v) (bl_dis b u v) (bl_level b).
Proof.
  intros b u v. assert (exists c, costs (bl_lcaW b u v) (bl_lca b u v) c /\ forall x, c x <= bl_level b) as (c & C & Hc).
  { unfold bl_lcaW, bl_lca. destruct (bl_is_ancestor b u v) as [[|]| |] eqn:E1.
    - exists (fun _ => 0). split; [|intros; lia]. apply costs_lift_bind. intros a [= <-]. apply costs_ret.
    - destruct (bl_is_ancestor b v u) as [[|]| |] eqn:E2.
      + exists (fun _ => 0). split; [|intros; lia]. apply costs_lift_bind. intros a [= <-]. apply costs_lift_bind. intros a [= <-]. apply costs_ret.
      + exists (fun _ => bl_level b). split; [|intros; lia]. apply costs_lift_bind. intros a [= <-]. apply costs_lift_bind. intros a [= <-]. eapply costs_bind.
        * apply (costs_for_const 1). intros i x. eapply costs_tick; [|reflexivity]. apply costs_lift_bind. intros y _. intros w. unfold ebind, elift. destruct (bl_is_ancestor b y v) as [[|]| |]; cbn; rewrite ?Nat.add_0_r; reflexivity.
        * intros x _. exists (fun _ => 0). split; [apply costs_lift|]. intros. unfold range. rewrite rev_length, seq_length. lia.
      + exists (fun _ => 0). split; [|intros; lia]. intros w. reflexivity.
      + exists (fun _ => 0). split; [|intros; lia]. intros w. reflexivity.
    - exists (fun _ => 0). split; [|intros; lia]. intros w. reflexivity.
    - exists (fun _ => 0). split; [|intros; lia]. intros w. reflexivity. }
  assert (forall A (m : eff nat A) r c, costs m r c -> (forall x, c x <= bl_level b) -> within m r (bl_level b)) as HW.
  { intros A m r c' H Hc' w. rewrite (H w). destruct r as [x| |]; cbn [mbind res_bind]; [|reflexivity|reflexivity]. exists (c' x). auto. }
  split; [eapply HW; eauto|]. destruct (bl_lca b u v) as [l| |] eqn:El.
  - apply (HW _ _ _ (fun _ => c l)); [|intros; apply Hc]. unfold bl_disW, bl_dis. rewrite El. eapply costs_bind; [exact C|]. intros l' [= <-]. exists (fun _ => 0). split; [|intros; lia].
    do 5 (apply costs_lift_bind; intros ? _). apply costs_lift.
  - apply (HW _ _ _ (fun _ => 0)); [|intros; lia]. unfold bl_disW, bl_dis. rewrite El. eapply costs_bind; [exact C|]. discriminate.
  - apply (HW _ _ _ (fun _ => 0)); [|intros; lia]. unfold bl_disW, bl_dis. rewrite El. eapply costs_bind; [exact C|]. discriminate.
Qed.
Print Assumptions C92_lca.

(** C92, the tree part of HLD::new on a tree of n vertices: six vectors and two searches of exactly 3n - 2 steps. *)
Theorem C92_hld : forall g root, is_tree g -> root < length g ->
  exists h, hl_new g root = Ok h /\ costs (hl_newW g root) (hl_new g root) (fun _ => 6 * length g + 2 * (3 * length g - 2)).
Proof.
  intros g root T Hr. destruct (tree_rtree g T root Hr) as (par & dep & R). destruct (hl_new_ok g root par dep R) as (h & hv0 & pos & posr & E & _). exists h. split; [exact E|].
  unfold hl_newW, hl_new. eapply (costs_ticks _ _ _ _ (fun _ => 2 * (3 * length g - 2))); [|intros; reflexivity]. apply costs_lift_bind. intros parent Ep. cbn [h_parent] in Ep. cbn [h_dep h_heavy h_head h_pos h_posr].
  destruct (hl_first g root par dep R parent Ep) as (Hp & h1 & hv & E1 & P1 & P2 & P3). destruct (dfs1_costs g root par dep R (S (length g)) root (HL parent (replicate (length g) 0) (replicate (length g) None) (replicate (length g) 0) (replicate (length g) 0) (replicate (length g) 0)) Hr Hp) as [C1 _].
  rewrite (sz_root _ _ _ _ R) in *. eapply costs_bind; [exact C1|]. intros x Ex. rewrite E1 in Ex. injection Ex as <-. cbn [fst]. exists (fun _ => 3 * length g - 2). split.
  - destruct (dfs2_costs g root par dep R (h_parent h1) (h_heavy h1) hv P1 P2 P3 (S (length g)) root root (h1, 0) Hr (conj eq_refl eq_refl)) as [C2 _]. rewrite (sz_root _ _ _ _ R) in C2.
    eapply costs_bind; [exact C2|]. intros st _. eexists. split; [apply costs_ret|]. intros. unfold less. rewrite Nat.eqb_refl. lia.
  - intros. unfold less. rewrite Nat.eqb_refl. lia.
Qed.
Print Assumptions C92_hld.

(** C93: on a tree, BinaryLifting::from with room for k nested calls answers as with room enough if every vertex is less than k edges from
    the root, and overflows the stack otherwise. *)
Theorem C93_from : forall g root k, is_tree g -> root < length g -> (Z.of_nat (length g) < 2 ^ 64)%Z ->
  (exists b, bl_from g root = Ok b) /\
  (closer_than g root k -> bl_from_stack k g root = bl_from g root) /\
  (~ closer_than g root k -> bl_from_stack k g root = Diverge).
Proof.
  intros g root k T Hr Hn. destruct (tree_rtree g T root Hr) as (par & dep & R). destruct (from_ok g root par dep R Hn) as (b & lv & E & _). split; [exists b; exact E|].
  unfold bl_from_stack. unfold bl_from in E |- *. rewrite lg_spec in E |- * by lia. cbn [mbind res_bind] in E |- *. set (st0 := (BL _ _ _ _ _, 0)) in *. pose proof (t_root_par _ _ _ _ R) as Hp.
  pose proof (fun k f Hs => bl_same g root par dep R k f root st0 Hr Hs) as HS. pose proof (fun f st' => bl_shallow g root par dep R f root st0 st' Hr) as HD. rewrite Hp in HS, HD. split.
  - intros H. apply (closer_iff _ _ _ _ R) in H. rewrite (HS (S (length g)) k H), Nat.add_comm, <- (HS k (S (length g))); [reflexivity|]. apply (closer_iff _ _ _ _ R), (closer_all g root par dep R).
  - intros H. rewrite (closer_iff _ _ _ _ R) in H. apply rbind_ok_inv in E as (st & E & _). destruct (bl_upto g (S (length g)) k root root st0) as [->|Eq]; [reflexivity|]. exfalso. apply H. apply (HD k st).
    rewrite Eq, Nat.add_comm, <- (HS k (S (length g))); [exact E|]. apply (closer_iff _ _ _ _ R), (closer_all g root par dep R).
Qed.
Print Assumptions C93_from.

(** C93: the same for the searches of HLD::new. *)
Theorem C93_hld : forall g root k, is_tree g -> root < length g ->
  (exists h, hl_new g root = Ok h) /\
  (closer_than g root k -> hl_new_stack k g root = hl_new g root) /\
  (~ closer_than g root k -> hl_new_stack k g root = Diverge).
Proof.
  intros g root k T Hr. destruct (tree_rtree g T root Hr) as (par & dep & R). destruct (hl_new_ok g root par dep R) as (h & hv0 & pos & posr & E & _). split; [exists h; exact E|].
  unfold hl_new_stack. unfold hl_new in E |- *. apply rbind_ok_inv in E as (parent & Ep & E). rewrite Ep. cbn [mbind res_bind]. cbn [h_parent] in Ep. cbn [h_dep h_heavy h_head h_pos h_posr] in *.
  destruct (hl_first g root par dep R parent Ep) as (Hp & h1 & hv & E1 & P1 & P2 & P3). set (h0 := HL _ _ _ _ _ _) in *. rewrite E1. cbn [mbind res_bind fst]. split.
  - intros H. apply (closer_iff _ _ _ _ R) in H. pose proof (closer_all g root par dep R) as HA. apply (closer_iff _ _ _ _ R) in HA.
    rewrite (dfs1_same g root par dep R (S (length g)) k root h0 Hr Hp H), Nat.add_comm, <- (dfs1_same g root par dep R k (S (length g)) root h0 Hr Hp HA), E1. cbn [mbind res_bind fst].
    rewrite (dfs2_same g root par dep R (h_parent h1) (h_heavy h1) hv P1 P2 P3 (S (length g)) k root root (h1, 0) Hr (conj eq_refl eq_refl) H), Nat.add_comm,
      <- (dfs2_same g root par dep R (h_parent h1) (h_heavy h1) hv P1 P2 P3 k (S (length g)) root root (h1, 0) Hr (conj eq_refl eq_refl) HA). reflexivity.
  - intros H. rewrite (closer_iff _ _ _ _ R) in H. pose proof (closer_all g root par dep R) as HA. apply (closer_iff _ _ _ _ R) in HA. destruct (dfs1_upto g (S (length g)) k root h0) as [->|Eq]; [reflexivity|]. exfalso. apply H.
    eapply (dfs1_shallow g root par dep R k root h0); [exact Hr|exact Hp|]. rewrite Eq, Nat.add_comm, <- (dfs1_same g root par dep R k (S (length g)) root h0 Hr Hp HA). exact E1.
Qed.
Print Assumptions C93_hld.

(** Non-vacuity: the tree of C20 rooted at 3 has 7 vertices (3 levels) and its deepest vertex is 3 edges away. *)
Example C92_nonvacuous : is_tree ex_tree /\ length ex_tree = 7 /\
  (exists b, bl_fromW ex_tree 3 0 = Ok (b, 7 * 3 + 3 * 7 + (6 * 7 - 2)) /\ bl_lcaW b 5 1 0 = Ok (2, 3) /\ bl_lcaW b 2 1 0 = Ok (2, 0)) /\
  (exists h, hl_newW ex_tree 3 0 = Ok (h, 6 * 7 + 2 * 19)).
Proof.
  split; [exact ex_tree_ok|]. split; [reflexivity|]. split.
  - eexists. split; [vm_compute; reflexivity|]. vm_compute. auto.
  - eexists. vm_compute. reflexivity.
Qed.
Example C93_nonvacuous : is_tree ex_tree /\ ~ closer_than ex_tree 3 3 /\
  bl_from_stack 3 ex_tree 3 = Diverge /\ bl_from_stack 4 ex_tree 3 = bl_from ex_tree 3 /\ hl_new_stack 3 ex_tree 3 = Diverge /\ hl_new_stack 4 ex_tree 3 = hl_new ex_tree 3.
Proof.
  assert (bl_from_stack 3 ex_tree 3 = Diverge) as E by (vm_compute; reflexivity). split; [exact ex_tree_ok|]. split.
  - intros H. destruct (C93_from ex_tree 3 3 ex_tree_ok ltac:(cbn; lia) ltac:(reflexivity)) as ((b & Eb) & H1 & _). rewrite (H1 H), Eb in E. discriminate E.
  - split; [exact E|]. vm_compute. auto.
Qed.
