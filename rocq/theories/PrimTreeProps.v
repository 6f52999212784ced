(** Prim's algorithm with MinHeap, and Kruskal's with UnionFind (C141). *)
From Coq Require Import Sorting.Sorted.
From stdpp Require Import relations.
From Verif Require Import Prelude HeapModel HeapSpec HeapProps LinkModel LinkSpec LinkProof KruskalProof LinkProps HeapUseProof HeapUseProps PrimTreeModel PrimTreeSpec PrimTreeProof.
Close Scope Z_scope.

(** Over any heap that keeps the contract of BinaryHeap for an order that compares the weights first, the picked edges connect to the root
    what all edges connect to it, one edge fewer than there are such vertices, and no edges T that connect as much are fewer, or lighter,
    if the weights are not negative or T has as many edges. *)
Theorem C141_prim : forall le3 (B : binheap (reverse (Z * nat * nat))) content, binheap_contract (rev_le le3) B content -> (forall a b, le3 a b -> (a.1.1 <= b.1.1)%Z) ->
  forall n (es : list (nat * nat * Z)) root, in_range n (map fst es) -> root < n ->
  exists F, prim B n es root = Ok F /\ NoDup F /\ (forall i, i ∈ F -> i < length es) /\
    (forall v, conn (map fst (pick es F)) root v <-> conn (map fst es) root v) /\
    (exists l, NoDup l /\ (forall v, v ∈ l <-> conn (map fst es) root v) /\ length l = S (length F)) /\
    (forall T, (forall e, e ∈ T -> e ∈ es) -> (forall v, conn (map fst es) root v -> conn (map fst T) root v) ->
       length F <= length T /\
       (Forall (fun x => 0 <= x.2)%Z es \/ length T = length F -> (weight (pick es F) <= weight T)%Z)).
Proof.
  intros le3 B content C Hle n es root Hes Hroot. destruct (adjacency_ok n es Hes) as (g & Eg & Lg & Hg).
  destruct (start_ok le3 B content C n es root Hroot g Lg Hg) as (vis0 & row & h0 & E1 & E2 & E3 & I0 & M0).
  destruct (loop_ok le3 Hle B content C n es root Hes Hroot g Lg Hg vis0 h0 I0 M0) as (F & EF & vis & h & I & Hb).
  exists F. unfold prim. rewrite Eg. cbn [mbind res_bind]. rewrite E1. cbn [mbind res_bind]. rewrite E2. cbn [mbind res_bind]. rewrite E3. cbn [mbind res_bind]. split; [exact EF|]. split; [apply (i_nodup _ _ _ _ _ _ _ _ I)|].
  assert (HF : forall i, i ∈ F -> i < length es) by (intros i Hi; destruct (i_in _ _ _ _ _ _ _ _ I i Hi) as (e & He & _); eapply lookup_lt_Some; eauto). split; [exact HF|].
  assert (Hin : forall e, e ∈ pick es F -> e ∈ es) by (intros e He; apply pick_in in He as (i & _ & He); eapply elem_of_list_lookup_2; eauto).
  assert (HS : forall v, conn (map fst es) root v <-> vis !! v = Some true).
  { intros v. split.
    - intros Cv. apply (conn_side (fun u => vis !! u = Some true) (map fst es) root v); [|exact Cv|apply (i_root _ _ _ _ _ _ _ _ I)]. intros p Hp. apply elem_of_list_fmap in Hp as (e & -> & He). apply elem_of_list_lookup in He as [k Hk].
      assert (forall a b, e.1 = (a, b) \/ e.1 = (b, a) -> vis !! a = Some true -> vis !! b = Some true) as K.
      { intros a b Hor Ha. destruct (decide (vis !! b = Some true)) as [Hy|Hn]; [exact Hy|]. pose proof (i_all _ _ _ _ _ _ _ _ I a b k e Ha Hn ltac:(exists e; split; [exact Hk|tauto]) Hk) as K. rewrite Hb in K. inversion K. }
      split; apply K; rewrite <- surjective_pairing; auto.
    - intros Hv. generalize (i_conn _ _ _ _ _ _ _ _ I v Hv). apply conn_mono. intros p Hp. apply elem_of_list_fmap in Hp as (e & -> & He). apply elem_of_list_fmap. exists e. auto. }
  split; [intros v; split; [|rewrite HS; apply (i_conn _ _ _ _ _ _ _ _ I)]|split].
  - apply conn_mono. intros p Hp. apply elem_of_list_fmap in Hp as (e & -> & He). apply elem_of_list_fmap. exists e. auto.
  - destruct (i_count _ _ _ _ _ _ _ _ I) as (l & Nl & Il & Ll). exists l. split; [exact Nl|]. split; [|exact Ll]. intros v. rewrite HS. apply Il.
  - intros T HT1 HT2. destruct (i_min _ _ _ _ _ _ _ _ I T (conj HT1 HT2)) as (rest & [S1 _] & Ln & Wt). rewrite app_length, pick_length in Ln by exact HF. rewrite weight_app in Wt. split; [lia|]. intros [Hpos|Heq].
    + assert (0 <= weight rest)%Z; [|lia]. assert (Forall (fun x : nat * nat * Z => 0 <= x.2)%Z rest) as Hr by (apply Forall_forall; intros x Hx; rewrite Forall_forall in Hpos; apply Hpos, S1; apply elem_of_app; auto). clear -Hr. induction Hr as [|x l Hx _ IH]; unfold weight in *; cbn in *; lia.
    + destruct rest; [|cbn in Ln; lia]. unfold weight in Wt at 2. cbn in Wt. lia.
Qed.
Print Assumptions C141_prim.

(** When every vertex is connected to the root, the tree has as many edges as Kruskal's, and the same weight. *)
Theorem C141_kruskal : forall le3 (B : binheap (reverse (Z * nat * nat))) content, binheap_contract (rev_le le3) B content -> (forall a b, le3 a b -> (a.1.1 <= b.1.1)%Z) ->
  forall n (es : list (nat * nat * Z)) root, (Z.of_nat n < 2 ^ 64)%Z -> in_range n (map fst es) -> root < n -> (forall v, v < n -> conn (map fst es) root v) ->
  StronglySorted (fun x y => x.2 <= y.2)%Z es ->
  exists F u bs, prim B n es root = Ok F /\ uf_link_all n (map fst es) = Ok (u, bs) /\ length F = n - 1 /\ length (chosen es bs) = n - 1 /\ weight (pick es F) = weight (chosen es bs).
Proof.
  intros le3 B content C Hle n es root Hn Hes Hroot Hall Hs. destruct (C141_prim le3 B content C Hle n es root Hes Hroot) as (F & EF & NF & RF & CF & (l & Nl & Il & Ll) & MF).
  destruct (C110_kruskal n es Hn Hes Hs) as (u & bs & Eu & CK & _ & MK). exists F, u, bs. split; [exact EF|]. split; [exact Eu|].
  assert (Hlt : forall i j, conn (map fst es) i j -> i = j \/ i < n /\ j < n).
  { intros i j H. induction H as [x|x y z H1 _ IH]; [auto|]. assert (x < n /\ y < n) as [Hx Hy] by (rewrite Forall_forall in Hes; destruct H1 as [H1|H1]; apply Hes in H1; cbn in H1; tauto). destruct IH as [<-|[_ Hz]]; auto. }
  assert (Hl : length l = n).
  { rewrite <- (seq_length n 0). apply Permutation_length, NoDup_Permutation; [exact Nl|apply NoDup_seq|]. intros v. rewrite Il, elem_of_seq. split; [|intros Hv; apply Hall; lia]. intros Hv. apply Hlt in Hv as [<-|[_ Hv]]; lia. }
  destruct (MK (pick es F)) as [K1 K2]; [apply pick_sub; assumption| |].
  { intros i j Cij. destruct (Hlt i j Cij) as [->|[Hi Hj]]; [apply rtc_refl|]. apply (conn_trans _ _ root); [apply conn_sym|]; apply CF, Hall; assumption. }
  destruct (MF (chosen es bs)) as [M1 M2]; [intros e He; eapply sublist_In_any; [apply (chosen_sublist es bs)|exact He]|intros v Hv; apply CK; exact Hv|].
  rewrite pick_length in K1, K2 by exact RF. split; [lia|]. split; [lia|]. apply Z.le_antisymm; [apply M2; right; lia|apply K2; right; lia].
Qed.
Print Assumptions C141_kruskal.

(** A root or an endpoint out of range makes the client panic. *)
Theorem C141_panics : forall (B : binheap (reverse (Z * nat * nat))) n (es : list (nat * nat * Z)) root, ~ (in_range n (map fst es) /\ root < n) -> prim B n es root = Panic.
Proof.
  intros B n es root H. unfold prim.
  destruct (decide (in_range n (map fst es))) as [Hes|Hes].
  - destruct (adjacency_ok n es Hes) as (g & Eg & _). rewrite Eg. cbn [mbind res_bind]. unfold vset. rewrite replicate_length. destruct (decide (root < n)) as [Hr|Hr]; [tauto|reflexivity].
  - assert (adjacency n es = Panic) as ->; [|reflexivity]. clear H. unfold adjacency, range. rewrite Nat.sub_0_r.
    assert (forall k m g, length g = n -> k + m = length es -> ~ in_range n (map fst (drop k es)) ->
      rfor (seq k m) (fun i g => e ← vget es i; g ← row_push g e.1.1 (e.1.2, i); row_push g e.1.2 (e.1.1, i)) g = Panic) as K; [|apply K; [apply replicate_length|lia|exact Hes]].
    assert (forall g a x, length g <= a -> row_push g a x = Panic) as RP by (intros g a x Ha; unfold row_push, vget; rewrite lookup_ge_None_2 by exact Ha; reflexivity).
    intros k m. revert k. induction m as [|m IH]; intros k g Lg Hk Hn; [rewrite drop_ge in Hn by lia; exfalso; apply Hn; constructor|].
    destruct (lookup_lt_is_Some_2 es k) as [[[a b] w] He]; [lia|]. cbn [seq rfor]. rewrite (vget_ok _ _ _ He). cbn [mbind res_bind fst snd]. rewrite (drop_S es (a, b, w) k He) in Hn. cbn [map fst] in Hn. rewrite Forall_cons in Hn. cbn [fst snd] in Hn.
    destruct (decide (a < n)) as [Ha|Ha].
    + destruct (row_push_ok g a (b, k)) as (g1 & E1 & L1 & _); [lia|]. rewrite E1. cbn [mbind res_bind]. destruct (decide (b < n)) as [Hb|Hb].
      * destruct (row_push_ok g1 b (a, k)) as (g2 & E2 & L2 & _); [lia|]. rewrite E2. cbn [mbind res_bind]. apply IH; [lia|lia|]. tauto.
      * rewrite RP by lia. reflexivity.
    + rewrite RP by lia. reflexivity.
Qed.
Print Assumptions C141_panics.

(** Six vertices in order of weight with a heavier parallel edge, a loop and a cycle; prim from vertex 3, and a graph with a part out of reach. *)
Definition prim_edges : list (nat * nat * Z) := [(4, 5, (-2)%Z); (0, 1, 1%Z); (5, 4, 1%Z); (2, 1, 2%Z); (0, 2, 2%Z); (3, 3, 3%Z); (3, 2, 3%Z); (1, 4, 4%Z); (3, 5, 6%Z)].
Example C141_nonvacuous : binheap_contract (rev_le le3) heap3 (fun h => h) /\ (forall a b, le3 a b -> (a.1.1 <= b.1.1)%Z) /\ in_range 6 (map fst prim_edges) /\
  StronglySorted (fun x y => x.2 <= y.2)%Z prim_edges /\ (forall v, v < 6 -> conn (map fst prim_edges) 3 v) /\
  prim heap3 6 prim_edges 3 = Ok [6; 4; 1; 7; 0] /\ weight (pick prim_edges [6; 4; 1; 7; 0]) = 8%Z /\
  (chosen prim_edges ∘ snd) <$> uf_link_all 6 (map fst prim_edges) = Ok [(4, 5, (-2)%Z); (0, 1, 1%Z); (2, 1, 2%Z); (3, 2, 3%Z); (1, 4, 4%Z)] /\
  prim heap3 7 (take 7 prim_edges) 4 = Ok [0] /\ prim heap3 6 prim_edges 6 = Panic /\ prim heap3 5 prim_edges 0 = Panic.
Proof.
  split; [apply heap3_contract|]. split; [unfold le3; intros a b; lia|]. split; [repeat (apply Forall_cons; split; [cbn; lia|]); constructor|].
  split; [repeat (apply SSorted_cons; [|repeat (apply Forall_cons; split; [cbn; lia|]); constructor]); constructor|].
  split; [|split_and!; vm_compute; reflexivity].
  intros v Hv. assert (E : forall a b, (a, b) ∈ map fst prim_edges \/ (b, a) ∈ map fst prim_edges -> conn (map fst prim_edges) a b) by (intros a b H; apply rtc_once; exact H).
  assert (conn (map fst prim_edges) 3 2) as C2 by (apply E; left; apply (elem_of_list_lookup_2 _ 6); reflexivity).
  assert (conn (map fst prim_edges) 3 5) as C5 by (apply E; left; apply (elem_of_list_lookup_2 _ 8); reflexivity).
  assert (v = 0 \/ v = 1 \/ v = 4 \/ v = 2 \/ v = 5 \/ v = 3) as [->|[->|[->|[->|[->| ->]]]]] by lia; [| | |exact C2|exact C5|apply rtc_refl].
  - apply (conn_trans _ _ 2); [exact C2|]. apply E. right. apply (elem_of_list_lookup_2 _ 4). reflexivity.
  - apply (conn_trans _ _ 2); [exact C2|]. apply E. left. apply (elem_of_list_lookup_2 _ 3). reflexivity.
  - apply (conn_trans _ _ 5); [exact C5|]. apply E. left. apply (elem_of_list_lookup_2 _ 2). reflexivity.
Qed.
