(** Connected components by union-find, scc and dijkstra (C109), and Kruskal's minimum spanning forest (C110). *)
From Coq Require Import Sorting.Sorted.
From stdpp Require Import relations.
From Verif Require Import Prelude ArraySpec UnionFindModel UnionFindProof UnionFindSpec UnionFindRefProps LinkModel LinkSpec LinkProof KruskalProof.
From Verif Require SccModel SccSpec SccProps HeapModel DijkstraModel DijkstraSpec DijkstraProps.

Notation in_range n := (Forall (fun p : nat * nat => p.1 < n /\ p.2 < n)).

(** Linking the endpoints of every edge computes the connected components: is_same answers connectivity, groups lists the components, size
    is the size of the component, and join answers true exactly for the edges whose endpoints were not connected before. *)
Theorem C109_components : forall n es, (Z.of_nat n < 2 ^ 64)%Z -> in_range n es ->
  exists u bs, uf_link_all n es = Ok (u, bs) /\ length bs = length es /\
    (forall k a b, es !! k = Some (a, b) -> (bs !! k = Some true <-> ~ conn (take k es) a b)) /\
    (forall a b, a < n -> b < n -> exists u' r, uf_is_same u a b = Ok (u', r) /\ (r = true <-> conn es a b)) /\
    (forall a, a < n -> exists u' l, uf_size u a = Ok (u', Z.of_nat (length l)) /\ NoDup l /\ forall b, b ∈ l <-> b < n /\ conn es a b) /\
    (exists u' gs, uf_groups u = Ok (u', gs) /\ n = length (filter (fun b => b = true) bs) + length gs /\
       forall a b, a < n -> b < n -> (conn es a b <-> exists c, c ∈ gs /\ a ∈ c /\ b ∈ c)).
Proof.
  intros n es Hn F. destruct (link_all n Hn es F) as (u & lab & bs & E & Hl & (L & HS & LL) & Hc). exists u, bs. split; [exact E|]. split; [exact Hl|].
  assert (forall a, a < n -> exists r, lab !! a = Some r) as Hlab by (intros a Ha; apply lookup_lt_is_Some_2; rewrite (la_len _ _ _ LL); exact Ha).
  split; [|split; [|split]].
  - intros k a b Hk. assert (in_range n (take k es)) as F1 by (apply Forall_take; exact F).
    destruct (link_all n Hn (take k es) F1) as (u1 & lab1 & bs1 & E1 & Hl1 & H1 & _).
    assert (a < n /\ b < n) as [Ha Hb] by (rewrite Forall_lookup in F; apply (F k (a, b) Hk)).
    destruct (link_ok n Hn u1 _ lab1 a b H1 Ha Hb) as (u2 & lab2 & t & E2 & _ & _ & Ht).
    pose proof (lookup_lt_Some _ _ _ Hk) as Hlt. assert (length bs1 = k) as Hb1 by (rewrite Hl1, take_length; lia).
    unfold uf_link_all in E, E1. rewrite <- (take_drop_middle es k (a, b) Hk), run_app, E1 in E. cbn [mbind res_bind run] in E. rewrite E2 in E. cbn [mbind res_bind] in E.
    destruct (run uf_link u2 (drop (S k) es)) as [[u3 bs3]| |]; cbn [mbind res_bind] in E; try discriminate. injection E as _ <-.
    rewrite lookup_app_r, Hb1, Nat.sub_diag by lia. cbn. rewrite <- Ht. split; [intros [= ->]; reflexivity|intros ->; reflexivity].
  - intros a b Ha Hb. pose proof (query_step n u lab (UfSame a b) L eq_refl I) as Q. cbn [uf_step uf_spec_step] in Q.
    destruct (Hlab a Ha) as [x Hx], (Hlab b Hb) as [y Hy]. rewrite Hx, Hy in Q.
    destruct (uf_is_same u a b) as [[u' r]| |]; cbn [mbind res_bind] in Q; [|discriminate|contradiction]. destruct Q as (Q & _). injection Q as <-.
    eexists u', _. split; [reflexivity|]. rewrite Nat.eqb_eq. apply (la_conn _ _ _ LL a b x y Hx Hy).
  - intros a Ha. pose proof (query_step n u lab (UfSize a) L eq_refl HS) as Q. cbn [uf_step uf_spec_step] in Q. destruct (Hlab a Ha) as [x Hx]. rewrite Hx in Q.
    destruct (uf_size u a) as [[u' r]| |]; cbn [mbind res_bind] in Q; [|discriminate|contradiction]. destruct Q as (Q & _). injection Q as <-.
    rewrite (lab_count n u lab x L). unfold count. eexists u', _. split; [reflexivity|]. split; [apply NoDup_filter, NoDup_seq|]. intros b.
    rewrite elem_of_list_filter, elem_of_seq. split.
    + intros [E1 Hb]. assert (b < n) as Hbn by lia. split; [exact Hbn|]. destruct (lab_some n u lab b L Hbn) as (y & Hy & Ry). rewrite (rootf_spec _ _ _ Ry) in E1. subst y.
      apply (la_conn _ _ _ LL a b x x Hx Hy). reflexivity.
    + intros [Hb C]. destruct (lab_some n u lab b L Hb) as (y & Hy & Ry). split; [|lia]. rewrite (rootf_spec _ _ _ Ry). symmetry. apply (la_conn _ _ _ LL a b x y Hx Hy). exact C.
  - destruct (lab_groups_ok n u lab L) as (u' & Eg & _). exists u', (lab_groups lab). split; [exact Eg|]. split; [rewrite (groups_count n es lab LL); exact Hc|].
    intros a b Ha Hb. destruct (Hlab a Ha) as [x Hx], (Hlab b Hb) as [y Hy]. rewrite <- (la_conn _ _ _ LL a b x y Hx Hy). unfold lab_groups. pose proof (la_len _ _ _ LL) as Hlen. split.
    + intros <-. exists (filter (fun i => lab !! i = Some x) (seq 0 (length lab))).
      assert (forall i, lab !! i = Some x -> i ∈ filter (fun i => lab !! i = Some x) (seq 0 (length lab))) as Hin.
      { intros i Hi. apply elem_of_list_filter. split; [exact Hi|]. apply elem_of_seq. apply lookup_lt_Some in Hi. lia. }
      split; [|auto]. apply elem_of_list_filter. split; [intros E0; apply (not_elem_of_nil a); rewrite <- E0; auto|].
      apply elem_of_list_fmap. exists x. split; [reflexivity|]. apply elem_of_seq. pose proof (la_rep _ _ _ LL a x Hx) as Hr. apply lookup_lt_Some in Hr. lia.
    + intros (c & Hcg & Hac & Hbc). apply elem_of_list_filter in Hcg as [_ Hcg]. apply elem_of_list_fmap in Hcg as (r & -> & _).
      apply elem_of_list_filter in Hac as [Hac _], Hbc as [Hbc _]. congruence.
Qed.
Print Assumptions C109_components.

(** An endpoint out of range makes the client panic. *)
Theorem C109_panics : forall n es, (Z.of_nat n < 2 ^ 64)%Z -> ~ in_range n es -> uf_link_all n es = Panic.
Proof.
  intros n es Hn HF. unfold uf_link_all. assert (forall es u es0 lab, linked n u es0 lab -> ~ in_range n es -> run uf_link u es = Panic) as H; [|eapply H; [apply linked_new|exact HF]].
  clear es HF. induction es as [|[a b] es IH]; intros u es0 lab H HF; [exfalso; apply HF; constructor|]. cbn [run].
  destruct (decide (a < n)) as [Ha|Ha]; [destruct (decide (b < n)) as [Hb|Hb]|].
  - destruct (link_ok n Hn u es0 lab a b H Ha Hb) as (u1 & lab1 & t & -> & H1 & _). cbn [mbind res_bind]. rewrite (IH u1 _ lab1 H1); [reflexivity|].
    intros F. apply HF. apply Forall_cons. auto.
  - unfold uf_link. cbn [fst snd]. pose proof (lb_inv _ _ _ (proj1 H)) as I. destruct (find_ok n u a I Ha) as (u1 & x & -> & _ & _ & _ & _ & I1). cbn [mbind res_bind].
    rewrite (find_panic n) by (assumption || lia). reflexivity.
  - unfold uf_link. cbn [fst snd]. pose proof (lb_inv _ _ _ (proj1 H)) as I. rewrite (find_panic n) by (assumption || lia). reflexivity.
Qed.
Print Assumptions C109_panics.

(** scc on the graph with every edge in both directions colours exactly these components, and counts them. *)
Theorem C109_scc : forall n es g, in_range n es -> length g = n -> (Z.of_nat n <= 2 ^ 31 - 1)%Z ->
  (forall a b, SccSpec.edge g a b <-> (a, b) ∈ es \/ (b, a) ∈ es) ->
  exists cnt col u bs, SccModel.scc g = Ok (cnt, col) /\ uf_link_all n es = Ok (u, bs) /\
    n = length (filter (fun b => b = true) bs) + cnt /\
    (forall a b, a < n -> b < n -> exists u' r, uf_is_same u a b = Ok (u', r) /\ (r = true <-> col !! a = col !! b)) /\
    (exists u' gs, uf_groups u = Ok (u', gs) /\ length gs = cnt).
Proof.
  intros n es g F Hg Hs HE. destruct (SccProps.C25_scc g) as (cnt & col & Es & Hlc & Hk1 & Hk2 & Hcol).
  { intros a b Hab. rewrite Forall_forall in F. apply HE in Hab as [Hab|Hab]; apply F in Hab; cbn in Hab; lia. }
  { lia. }
  assert (Z.of_nat n < 2 ^ 64)%Z as Hn by lia. destruct (link_all n Hn es F) as (u & lab & bs & E & Hl & (L & HS & LL) & Hc). exists cnt, col, u, bs. split; [exact Es|]. split; [exact E|].
  assert (forall a b, SccSpec.reach g a b <-> conn es a b) as HR.
  { intros a b. unfold SccSpec.reach, conn. split; induction 1 as [x|x y z H _ IH]; try apply rtc_refl; (eapply rtc_l; [|exact IH]); apply HE; exact H. }
  assert (forall a b x y, lab !! a = Some x -> lab !! b = Some y -> a < n /\ b < n /\ (x = y <-> col !! a = col !! b)) as HC.
  { intros a b x y Hx Hy. pose proof (la_conn _ _ _ LL a b x y Hx Hy) as C. pose proof (la_len _ _ _ LL) as Hlen.
    apply lookup_lt_Some in Hx, Hy. rewrite Hlen in *. split; [exact Hx|]. split; [exact Hy|].
    destruct (lookup_lt_is_Some_2 col a) as [p Hp]; [lia|]. destruct (lookup_lt_is_Some_2 col b) as [q Hq]; [lia|]. rewrite C, Hp, Hq.
    pose proof (Hcol a b p q Hp Hq) as C2. rewrite !HR in C2. split.
    - intros H. f_equal. apply C2. split; [exact H|apply conn_sym; exact H].
    - intros [= ->]. apply C2. reflexivity. }
  assert (forall a, a < n -> exists r, lab !! a = Some r) as Hlab by (intros a Ha; apply lookup_lt_is_Some_2; rewrite (la_len _ _ _ LL); exact Ha).
  assert (length (reps lab) = cnt) as Hcnt.
  { apply Nat.le_antisymm.
    - rewrite <- (seq_length cnt 0). apply (inj_length (fun r k => col !! r = Some k)); [apply reps_NoDup| |].
      + intros r Hr. apply elem_reps in Hr. pose proof (lookup_lt_Some _ _ _ Hr) as Hlt. rewrite (la_len _ _ _ LL) in Hlt.
        destruct (lookup_lt_is_Some_2 col r) as [k Hk]; [lia|]. exists k. split; [|exact Hk]. apply elem_of_seq. pose proof (Hk1 r k Hk). lia.
      + intros r r' k Hr Hr' K K'. apply elem_reps in Hr, Hr'. destruct (HC r r' r r' Hr Hr') as (_ & _ & HH). apply HH. congruence.
    - rewrite <- (seq_length cnt 0) at 1. apply (inj_length (fun k r => exists a, col !! a = Some k /\ lab !! a = Some r)); [apply NoDup_seq| |].
      + intros k Hk. apply elem_of_seq in Hk. destruct (Hk2 k ltac:(lia)) as [a Ha]. pose proof (lookup_lt_Some _ _ _ Ha) as Hlt.
        destruct (Hlab a ltac:(lia)) as [r Hr]. exists r. split; [apply elem_reps; apply (la_rep _ _ _ LL a r Hr)|]. eauto.
      + intros k k' r _ _ (a & A1 & A2) (b & B1 & B2). destruct (HC a b r r A2 B2) as (_ & _ & HH). rewrite (proj1 HH eq_refl) in A1. congruence. }
  split; [unfold trues in Hc; lia|]. split.
  - intros a b Ha Hb. pose proof (query_step n u lab (UfSame a b) L eq_refl I) as Q. cbn [uf_step uf_spec_step] in Q.
    destruct (Hlab a Ha) as [x Hx], (Hlab b Hb) as [y Hy]. rewrite Hx, Hy in Q.
    destruct (uf_is_same u a b) as [[u' r]| |]; cbn [mbind res_bind] in Q; [|discriminate|contradiction]. destruct Q as (Q & _). injection Q as <-.
    eexists u', _. split; [reflexivity|]. rewrite Nat.eqb_eq. apply (HC a b x y Hx Hy).
  - destruct (lab_groups_ok n u lab L) as (u' & Eg & _). exists u', (lab_groups lab). split; [exact Eg|]. rewrite (groups_count n es lab LL). exact Hcnt.
Qed.
Print Assumptions C109_scc.

(** dijkstra reaches exactly the component of its source, for any non-negative weights on the edges in both directions. *)
Theorem C109_dijkstra : forall (B : HeapModel.binheap (HeapModel.reverse (Z * nat))) content, HeapModel.binheap_contract (HeapModel.rev_le DijkstraModel.pair_le) B content ->
  forall n es g s dis, in_range n es -> (Z.of_nat n < 2 ^ 64)%Z -> length g = n -> s < n -> DijkstraSpec.nonneg g ->
  (forall a b, (exists l c, g !! a = Some l /\ (b, c) ∈ l) <-> (a, b) ∈ es \/ (b, a) ∈ es) ->
  DijkstraModel.dijkstra B g s = Ok dis ->
  exists u bs, uf_link_all n es = Ok (u, bs) /\ forall v, v < n -> exists u' r, uf_is_same u s v = Ok (u', r) /\ (r = true <-> exists d, dis !! v = Some (Some d)).
Proof.
  intros B content HB n es g s dis F Hn Hg Hs Hw HE Ed. destruct (DijkstraProps.C27_panics B content HB g s Hw ltac:(lia)) as [_ [Ep|(dis' & E' & Hlen & HD)]]; [congruence|].
  assert (dis' = dis) as -> by congruence. clear E'. destruct (C109_components n es Hn F) as (u & bs & E & _ & _ & Hsame & _). exists u, bs. split; [exact E|].
  intros v Hv. destruct (Hsame s v Hs Hv) as (u' & r & Er & Hr). exists u', r. split; [exact Er|]. rewrite Hr.
  assert ((exists w, DijkstraSpec.walk g s v w) <-> conn es s v) as HW.
  { clear -HE. split.
    - intros [w W]. induction W as [|x w l y c W IH Hl Hc]; [apply rtc_refl|]. eapply rtc_r; [apply IH|]. apply HE. eauto.
    - unfold conn. intros C. revert v C. apply (rtc_ind_r (fun y => exists w, DijkstraSpec.walk g s y w) s); [exists 0%Z; constructor|].
      intros y z _ H [w W]. apply HE in H as (l & c & Hl & Hc). exists (w + c)%Z. econstructor; eauto. }
  rewrite <- HW. destruct (HD v ltac:(lia)) as [H1 H2]. split.
  - intros Hex. destruct (lookup_lt_is_Some_2 dis v) as [[d|] Hd]; [lia|eauto|]. apply H2 in Hd. contradiction.
  - intros [d Hd]. apply H1 in Hd. exists d. apply Hd.
Qed.
Print Assumptions C109_dijkstra.

(** Kruskal: over the edges (u, v, w) in order of weight, the edges for which join answers true form a minimum spanning forest.  They
    connect what all edges connect, none of them can be left out, and no choice T of edges that connects the same is lighter,
    if the weights are not negative or T has as many edges. *)
Theorem C110_kruskal : forall n (es : list (nat * nat * Z)), (Z.of_nat n < 2 ^ 64)%Z -> in_range n (map fst es) ->
  StronglySorted (fun x y => x.2 <= y.2)%Z es ->
  exists u bs, uf_link_all n (map fst es) = Ok (u, bs) /\
    (forall i j, conn (map fst (chosen es bs)) i j <-> conn (map fst es) i j) /\
    (forall F1 a b w F2, chosen es bs = F1 ++ (a, b, w) :: F2 -> ~ conn (map fst (F1 ++ F2)) a b) /\
    (forall T, T ⊆+ es -> (forall i j, conn (map fst es) i j -> conn (map fst T) i j) ->
       length (chosen es bs) <= length T /\
       (Forall (fun x => 0 <= x.2)%Z es \/ length T = length (chosen es bs) -> (weight (chosen es bs) <= weight T)%Z)).
Proof.
  intros n es Hn F Hs. destruct (link_all n Hn (map fst es) F) as (u & lab & bs & E & Hl & Hk & Hc). rewrite map_length in Hl. exists u, bs. split; [exact E|].
  assert (forall i j, conn (map fst (chosen es bs)) i j <-> conn (map fst es) i j) as HF.
  { rewrite chosen_map. intros i j. apply (link_keeps n Hn (map fst es) (uf_new n) [] [] (seq 0 n) bs u); [apply linked_new|reflexivity|exact F|exact E]. }
  assert (forall X, (forall x, x ∈ X -> x ∈ es) -> in_range n (map fst X)) as FX.
  { intros X HX. apply Forall_forall. intros p Hp. apply elem_of_list_fmap in Hp as (x & -> & Hx). rewrite Forall_forall in F. apply F. apply elem_of_list_fmap. exists x. auto. }
  split; [exact HF|]. split.
  - intros F1 a b w F2 EF C. assert (forall x, x ∈ F1 ++ F2 -> x ∈ es) as HX.
    { intros x Hx. eapply sublist_In_any; [apply (chosen_sublist es bs)|]. rewrite EF. rewrite elem_of_app, elem_of_cons. apply elem_of_app in Hx. tauto. }
    destruct (link_rank n Hn (map fst (F1 ++ F2)) (FX _ HX)) as (lab' & LL' & Hr). assert (length (reps lab') = length (reps lab)) as Hreps.
    { apply (reps_eq n (map fst es) (map fst (F1 ++ F2)) lab lab' (proj2 (proj2 Hk)) LL'). intros i j. rewrite <- HF, EF, !map_app. cbn [map fst]. split.
      - intros Cij. assert (forall x y, conn ((map fst F1 ++ map fst F2) ++ [(a, b)]) x y -> conn (map fst F1 ++ map fst F2) x y) as HH.
        { intros x y. rewrite map_app in C. rewrite conn_snoc. intros [H|[[H1 H2]|[H1 H2]]]; [exact H| |]; (eapply conn_trans; [exact H1|]); (eapply conn_trans; [|exact H2]); [exact C|apply conn_sym; exact C]. }
        apply HH. eapply conn_mono; [|exact Cij]. intros p. rewrite !elem_of_app, elem_of_cons, elem_of_list_singleton. tauto.
      - apply conn_mono. intros p. rewrite !elem_of_app, elem_of_cons. tauto. }
    pose proof (chosen_length es bs Hl) as Hcl. rewrite EF, app_length in Hcl. rewrite map_length, app_length in Hr. cbn [length] in Hcl. lia.
  - intros T HT HC. apply submseteq_sublist_r in HT as (T' & EP & Hsub). apply sublist_chosen in Hsub as (ts & Ht & <-).
    assert (forall k, trues (drop k bs) <= trues (drop k ts)) as Hsuf.
    { intros k. apply (suffix_count n Hn (map fst es) ts u bs k F); [rewrite map_length; exact Ht| |exact E]. intros i j _ _ Cij. rewrite <- chosen_map.
      eapply conn_mono; [|apply HC; exact Cij]. intros p Hp. rewrite <- EP. exact Hp. }
    pose proof (Hsuf 0) as H0. cbn [drop] in H0. assert (length T = trues ts) as HlT by (rewrite EP; apply chosen_length; exact Ht).
    rewrite (chosen_length es bs Hl), HlT. split; [exact H0|]. intros Hor.
    assert (weight T = weight (chosen es ts)) as ->.
    { unfold weight. apply (foldr_permutation_proper (=)); [intros x y ? <-; congruence| |apply Permutation_map; exact EP]. intros; lia. }
    destruct Hor as [Hpos|Heq].
    + pose proof (select_heavier es bs ts 0%Z Hs Hpos Hl Ht Hsuf). lia.
    + destruct es as [|x es']; [destruct ts, bs; try discriminate; cbn; lia|].
      pose proof (select_heavier (x :: es') bs ts x.2 Hs) as Hh. rewrite Heq, Z.sub_diag, Z.mul_0_r, Z.add_0_r in Hh. apply Hh; auto.
      apply StronglySorted_inv in Hs as [_ Hs]. apply Forall_cons. split; [lia|exact Hs].
Qed.
Print Assumptions C110_kruskal.

(** Seven vertices, edges with a cycle, a repeated edge and a loop, in order of weight. *)
Definition ex_edges : list (nat * nat * Z) := [(4, 5, (-2)%Z); (0, 1, 1%Z); (5, 4, 1%Z); (2, 1, 2%Z); (0, 2, 2%Z); (3, 3, 3%Z); (6, 2, 3%Z); (1, 6, 4%Z)].
Definition ex_graph : list (list nat) := [[1; 2]; [0; 2; 6]; [1; 0; 6]; [3]; [5]; [4; 4]; [2; 1]].
Example C109_C110_nonvacuous : in_range 7 (map fst ex_edges) /\ StronglySorted (fun x y => x.2 <= y.2)%Z ex_edges /\
  (forall a b, SccSpec.edge ex_graph a b <-> (a, b) ∈ map fst ex_edges \/ (b, a) ∈ map fst ex_edges) /\
  snd <$> uf_link_all 7 (map fst ex_edges) = Ok [true; true; false; true; false; false; true; false] /\
  chosen ex_edges [true; true; false; true; false; false; true; false] = [(4, 5, (-2)%Z); (0, 1, 1%Z); (2, 1, 2%Z); (6, 2, 3%Z)] /\
  SccModel.scc ex_graph = Ok (3, [0; 0; 0; 1; 2; 2; 0]) /\
  (r ← uf_link_all 7 (map fst ex_edges); x ← uf_groups r.1; Ok x.2) = Ok [[0; 1; 2; 6]; [3]; [4; 5]] /\
  uf_link_all 6 (map fst ex_edges) = Panic.
Proof.
  split; [repeat (apply Forall_cons; split; [cbn; lia|]); constructor|].
  split; [repeat (apply SSorted_cons; [|repeat (apply Forall_cons; split; [cbn; lia|]); constructor]); constructor|].
  split.
  { intros a b. assert (SccSpec.edge ex_graph a b <-> (a, b) ∈ flat_map (fun u => map (pair u) (default [] (ex_graph !! u))) (seq 0 7)) as ->.
    - rewrite elem_of_list_In, in_flat_map. split.
      + intros (l & Hl & Hb). exists a. split; [apply in_seq; apply lookup_lt_Some in Hl; cbn in Hl; lia|]. rewrite Hl. cbn. apply in_map, elem_of_list_In, Hb.
      + intros (u & Hu & Hin). apply in_map_iff in Hin as (v & [= -> ->] & Hv). destruct (ex_graph !! a) as [l|] eqn:El; [|contradiction].
        exists l. split; [exact El|]. apply elem_of_list_In, Hv.
    - cbn. rewrite !elem_of_cons, !elem_of_nil. split; intros H; [|destruct H as [H|H]]; repeat destruct H as [H|H]; try injection H as -> ->; tauto. }
  split; [vm_compute; reflexivity|]. split; [reflexivity|]. split; [vm_compute; reflexivity|]. split; vm_compute; reflexivity.
Qed.
