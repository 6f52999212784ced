(** Dijkstra and BinaryLifting on weighted trees (C111). *)
From Verif Require Import Prelude ArraySpec HeapModel HeapList DijkstraModel TreeSpec TreeProof LiftModel LiftProps HldSpec HldProps TreeAgreeProof FieldModel FieldSpec FieldProof FieldProps
  WeightedSpec WeightedModel WeightedProof.
From Verif Require DijkstraSpec DijkstraProps.

(** On a tree dijkstra gives every vertex the weight of the path to it. *)
Theorem C111_paths : forall (B : binheap (reverse (Z * nat))) content, binheap_contract (rev_le pair_le) B content ->
  forall g c s dis, is_tree g -> s < length g -> dijkstra B (weighted g c) s = Ok dis ->
  length dis = length g /\ forall v p, is_path g s v p -> dis !! v = Some (Some (Z.of_nat (wlen c p))).
Proof.
  intros B content HB g c s dis T Hs E. destruct (DijkstraProps.C27_panics B content HB (weighted g c) s (weighted_nonneg g c)) as [_ [Ep|(dis' & E' & Hl & HD)]]; [rewrite weighted_length; exact Hs|congruence|].
  assert (dis' = dis) as -> by congruence. rewrite weighted_length in *. split; [exact Hl|]. intros v p P. destruct (tree_rtree g T s Hs) as (par & dep & R).
  assert (v < length g) as Hv by (apply (walk_lt _ _ _ _ R s v p); [apply P|exact Hs]). apply (HD v Hv). apply (tree_shortest c g s v p T P). reflexivity.
Qed.
Print Assumptions C111_paths.

(** It panics exactly when some edge, read from the end nearer to the source or back, passes the largest usize. *)
Theorem C111_panics : forall (B : binheap (reverse (Z * nat))) content, binheap_contract (rev_le pair_le) B content ->
  forall g c s, is_tree g -> s < length g -> dijkstra B (weighted g c) s <> Diverge /\
  (dijkstra B (weighted g c) s = Panic <-> exists u p v, is_path g s u p /\ edge g u v /\ (2 ^ 64 <= Z.of_nat (wlen c p + c u v))%Z).
Proof.
  intros B content HB g c s T Hs. destruct (DijkstraProps.C27_panics B content HB (weighted g c) s (weighted_nonneg g c)) as [HP HQ]; [rewrite weighted_length; exact Hs|].
  split; [destruct HQ as [->|(dis & -> & _)]; discriminate|]. rewrite HP, weighted_length. destruct (tree_rtree g T s Hs) as (par & dep & R).
  assert (forall u v, edge g u v -> v < length g) as Hlt by (intros u v He; destruct (tree_sym _ T u v He) as (l & Hl & _); apply lookup_lt_Some in Hl; exact Hl).
  split.
  - intros (u & d & es & v & x & HS & Hu & Hv & Hor). destruct (proj1 (weighted_edge g c u v x)) as [He ->]; [eauto|].
    assert (u < length g) as Hug by (apply lookup_lt_Some in Hu; rewrite weighted_length in Hu; exact Hu).
    destruct (tree_path _ T s u Hs Hug) as (p & P). apply (tree_shortest c g s u p T P) in HS as ->. exists u, p, v. split; [exact P|]. split; [exact He|].
    specialize (Hlt u v He). lia.
  - intros (u & p & v & P & He & Hle). destruct (proj2 (weighted_edge g c u v (Z.of_nat (c u v)))) as (es & Hes & Hv); [auto|].
    exists u, (Z.of_nat (wlen c p)), es, v, (Z.of_nat (c u v)). split; [apply (tree_shortest c g s u p T P); reflexivity|]. split; [exact Hes|]. split; [exact Hv|]. right. lia.
Qed.
Print Assumptions C111_panics.

(** With all weights 1, dijkstra from u and dis(u, _) of a BinaryLifting give the same distances. *)
Theorem C111_unit : forall (B : binheap (reverse (Z * nat))) content, binheap_contract (rev_le pair_le) B content ->
  forall g root, (Z.of_nat (length g) < 2 ^ 63)%Z -> lift_ok g root (fun b => forall u v, u < length g -> v < length g ->
  exists dis d, dijkstra B (weighted g (fun _ _ => 1)) u = Ok dis /\ bl_dis b u v = Ok d /\ dis !! v = Some (Some (Z.of_nat d))).
Proof.
  intros B content HB g root Hs T Hr Hn. destruct (C22_dis g root T Hr Hn) as (b & Eb & Hd). exists b. split; [exact Eb|]. intros u v Hu Hv.
  destruct (Hd u v Hu Hv) as (d & Ed & D). destruct (C111_panics B content HB g (fun _ _ => 1) u T Hu) as [HDv HP].
  destruct (dijkstra B (weighted g (fun _ _ => 1)) u) as [dis| |] eqn:E; [| |contradiction].
  - exists dis, d. split; [reflexivity|]. split; [exact Ed|]. destruct (tree_path _ T u v Hu Hv) as (p & P).
    destruct (C111_paths B content HB g _ u dis T Hu E) as [_ Hpath]. rewrite (Hpath v p P), wlen_unit, (path_length _ _ _ _ _ T P D). do 3 f_equal. lia.
  - exfalso. destruct (proj1 HP eq_refl) as (x & p & y & P & He & Hle). rewrite wlen_unit in Hle. destruct (tree_rtree g T u Hu) as (par & dep & R).
    assert (x < length g) as Hx by (apply (walk_lt _ _ _ _ R u x p); [apply P|exact Hu]).
    pose proof (dep_lt _ _ _ _ R x Hx) as Hdep. assert (is_dist g u x (dep x)) as Dx.
    { replace (dep x) with (dep u + dep x - 2 * dep u) by (rewrite (t_root_dep _ _ _ _ R); lia). eapply dist_ok; eauto. apply lcap_anc. apply (anc_root _ _ _ _ R x Hx). }
    rewrite (path_length _ _ _ _ _ T P Dx) in Hle. lia.
Qed.
Print Assumptions C111_unit.

(** dijkstra from the root fills the field dep, and dis then gives for all pairs what dijkstra from every vertex would give. *)
Theorem C111_all_pairs : forall (B : binheap (reverse (Z * nat))) content, binheap_contract (rev_le pair_le) B content ->
  forall g root c dis, (forall x y, c x y = c y x) -> root < length g -> dijkstra B (weighted g c) root = Ok dis ->
  lift_ok g root (fun b => exists b', dep_from b dis = Ok b' /\ forall u v, u < length g -> v < length g ->
    bl_lca b' u v = bl_lca b u v /\
    forall disu, dijkstra B (weighted g c) u = Ok disu -> exists d, disu !! v = Some (Some d) /\
      (exists l pl pv, is_lca g root u v l /\ is_path g u l pl /\ is_path g root v pv /\
         bl_dis_usize b' u v = if (Z.of_nat (wlen c pl + wlen c pv) <? 2 ^ 64)%Z then Ok (Z.to_nat d) else Panic)).
Proof.
  intros B content HB g root c dis C Hr0 E T Hr Hn. destruct (C108_weighted g root T Hr Hn) as (b & Eb & HW). exists b. split; [exact Eb|].
  destruct (C111_paths B content HB g c root dis T Hr E) as [Hl Hd].
  assert (exists w, mapM (fun d => Z.to_nat <$> d) dis = Some w) as [w Ew].
  { apply mapM_is_Some_2. apply Forall_forall. intros d Hin. apply elem_of_list_lookup in Hin as [i Hi]. pose proof (lookup_lt_Some _ _ _ Hi) as Hlt.
    destruct (tree_path _ T root i Hr ltac:(lia)) as (p & P). rewrite (Hd i p P) in Hi. injection Hi as <-. cbn. eauto. }
  unfold dep_from. rewrite Ew. exists (with_dep b w). split; [reflexivity|]. intros u v Hu Hv. split; [reflexivity|]. intros disu Eu.
  destruct (tree_path _ T u v Hu Hv) as (p & P). destruct (C111_paths B content HB g c u disu T Hu Eu) as [_ Hdu]. exists (Z.of_nat (wlen c p)). split; [exact (Hdu v p P)|].
  rewrite Nat2Z.id. apply (HW c w C); [|exact Hu|exact Hv|exact P]. intros x q Q. apply mapM_Some in Ew. pose proof (Forall2_lookup_l _ _ _ _ _ Ew (Hd x q Q)) as (y & Hy & Ey).
  rewrite Hy. cbn in Ey. injection Ey as <-. rewrite Nat2Z.id. reflexivity.
Qed.
Print Assumptions C111_all_pairs.

(** The tree of LiftProps rooted at 3 with the weights of FieldProps. *)
Example C111_nonvacuous :
  dijkstra DijkstraProps.pheap (weighted ex_tree ex_weight) 3 = Ok (map Some [70; 80; 50; 0; 110; 200; 210]%Z) /\
  dijkstra DijkstraProps.pheap (weighted ex_tree ex_weight) 5 = Ok (map Some [170; 180; 150; 200; 90; 0; 190]%Z) /\
  (b ← bl_from ex_tree 3; d ← dijkstra DijkstraProps.pheap (weighted ex_tree ex_weight) 3; b ← dep_from b d;
   x ← bl_dis_usize b 5 1; y ← bl_dis_usize b 5 6; Ok (x, y)) = Ok (180, 190) /\
  (b ← bl_from ex_tree 3; bl_dis b 5 1) = Ok 4 /\
  dijkstra DijkstraProps.pheap (weighted ex_tree (fun _ _ => 1)) 5 = Ok (map Some [3; 4; 2; 3; 1; 0; 2]%Z).
Proof. split_and!; vm_compute; reflexivity. Qed.
