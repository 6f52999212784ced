From Coq Require Import Sorting.Sorted.
From Verif Require Import Prelude UtilModel TreeSpec TreeProof LiftModel LiftProof VirtModel VirtSpec.

Lemma ssorted_lookup (R : nat -> nat -> Prop) l i j x y : StronglySorted R l -> i < j -> l !! i = Some x -> l !! j = Some y -> R x y.
Proof.
  intros S. revert i j. induction S as [|z l S IH F]; intros i j Hij Hx Hy; [discriminate|]. destruct i as [|i]; destruct j as [|j]; cbn in Hx, Hy; try lia.
  - injection Hx as <-. rewrite Forall_forall in F. apply F. eapply elem_of_list_lookup_2; eauto.
  - apply (IH i j); try assumption. lia.
Qed.

Section virt.
  Context (g : list (list nat)) (root : nat) (par dep : nat -> nat) (Ht : rtree g root par dep).
  Context (level : nat) (Hlev : 1 <= level) (Hpow : length g < 2 ^ level) (b : bl) (B : built g par dep level b).
  Notation n := (length g).
  Notation anc := (anc par).
  Notation lcap := (lcap par).
  Definition tin (v : nat) : nat := default 0 (bl_tin b !! v).
  Definition tout (v : nat) : nat := default 0 (bl_tout b !! v).
  Lemma tin_get v : v < n -> vget (bl_tin b) v = Ok (tin v).
  Proof. intros H. destruct (lookup_lt_is_Some_2 (bl_tin b) v) as [x Hx]; [rewrite (w_tin _ _ _ (b_wf _ _ _ _ _ B)); exact H|]. unfold tin. rewrite Hx. apply vget_ok. exact Hx. Qed.
  Lemma tout_get v : v < n -> vget (bl_tout b) v = Ok (tout v).
  Proof. intros H. destruct (lookup_lt_is_Some_2 (bl_tout b) v) as [x Hx]; [rewrite (w_tout _ _ _ (b_wf _ _ _ _ _ B)); exact H|]. unfold tout. rewrite Hx. apply vget_ok. exact Hx. Qed.
  Lemma anc_tin u v : u < n -> v < n -> anc u v <-> tin u <= tin v < tout u.
  Proof.
    intros Hu Hv. destruct (is_anc_ok g par dep level Hlev Hpow b B u v Hu Hv) as (r & E & R). rewrite <- R. unfold bl_is_ancestor in E. rewrite !tin_get, tout_get in E by assumption. cbn [mbind res_bind] in E.
    destruct (Nat.leb_spec (tin u) (tin v)); injection E as <-; [rewrite Nat.ltb_lt; lia|]. split; [discriminate|lia].
  Qed.
  Lemma tin_inj u v : u < n -> v < n -> tin u = tin v -> u = v.
  Proof.
    intros Hu Hv E. pose proof (proj1 (anc_tin u u Hu Hu) (anc_refl par u)). pose proof (proj1 (anc_tin v v Hv Hv) (anc_refl par v)). apply (anc_antisym _ _ _ _ Ht); try assumption; apply anc_tin; try assumption; lia.
  Qed.
  Lemma anc_mid w x y z : w < n -> x < n -> y < n -> z < n -> tin x <= tin y <= tin z -> anc w x -> anc w z -> anc w y.
  Proof. intros Hw Hx Hy Hz H A1 A2. apply anc_tin in A1; try assumption. apply anc_tin in A2; try assumption. apply anc_tin; try assumption. lia. Qed.
  Lemma lcap_lt x y l : x < n -> lcap x y l -> l < n.
  Proof. intros Hx (A & _). exact (anc_lt _ _ _ _ Ht l x Hx A). Qed.
  Lemma lcap_sym x y l : lcap x y l -> lcap y x l.
  Proof. intros (A & A' & M). split; [exact A'|]. split; [exact A|]. intros w W1 W2. apply M; assumption. Qed.

  (** Three vertices in the order of tin. *)
  Lemma lcap_three x y z a c w : x < n -> y < n -> z < n -> tin x <= tin y <= tin z -> lcap x y a -> lcap y z c -> lcap x z w -> w = a \/ w = c.
  Proof.
    intros Hx Hy Hz O (A1 & A2 & A3) (C1 & C2 & C3) L. pose proof L as (W1 & W2 & W3). pose proof (lcap_lt _ _ _ Hx L) as Hw. pose proof (anc_mid w x y z Hw Hx Hy Hz O W1 W2) as Wy.
    pose proof (anc_lt _ _ _ _ Ht a x Hx A1) as Ha. pose proof (anc_lt _ _ _ _ Ht c z Hz C2) as Hc.
    destruct (anc_comparable par a c y A2 C1) as [D|D].
    - left. apply (anc_antisym _ _ _ _ Ht); try assumption; [apply A3; assumption|apply W3; [exact A1|exact (anc_trans par _ _ _ D C2)]].
    - right. apply (anc_antisym _ _ _ _ Ht); try assumption; [apply C3; assumption|apply W3; [exact (anc_trans par _ _ _ D A1)|exact C2]].
  Qed.
  Lemma lcap_of_three x y z a w : x < n -> y < n -> z < n -> tin x <= tin y <= tin z -> lcap x z w -> (forall v, anc v a <-> anc v x /\ anc v y /\ anc v z) -> a < n -> a = w.
  Proof.
    intros Hx Hy Hz O L Ha Han. pose proof L as (W1 & W2 & W3). pose proof (lcap_lt _ _ _ Hx L) as Hw. apply (anc_antisym _ _ _ _ Ht); try assumption.
    - destruct (proj1 (Ha a) (anc_refl par a)) as (X & _ & Z). apply W3; assumption.
    - apply Ha. split; [exact W1|]. split; [exact (anc_mid w x y z Hw Hx Hy Hz O W1 W2)|exact W2].
  Qed.
  Lemma lcap_spec x y l v : lcap x y l -> anc v l <-> anc v x /\ anc v y.
  Proof. intros (A & A' & M). split; [intros V; split; eapply anc_trans; eassumption|intros [V1 V2]; apply M; assumption]. Qed.
  (** The lca of an lca and a vertex is the lca of two of the three. *)
  Lemma lcap_two x y z l w : x < n -> y < n -> z < n -> lcap x y l -> lcap l z w -> exists p q, p ∈ [x; y; z] /\ q ∈ [x; y; z] /\ lcap p q w.
  Proof.
    intros Hx Hy Hz L W. pose proof (lcap_lt _ _ _ Hx L) as Hl. pose proof (lcap_lt _ _ _ Hl W) as Hw.
    assert (Hs : forall v, anc v w <-> anc v x /\ anc v y /\ anc v z) by (intros v; rewrite (lcap_spec _ _ _ v W), (lcap_spec _ _ _ v L); tauto).
    assert (K : forall p r q, p < n -> r < n -> q < n -> tin p <= tin r <= tin q -> (forall v, anc v w <-> anc v p /\ anc v r /\ anc v q) -> lcap p q w).
    { intros p r q Hp Hr Hq O S. destruct (lcap_exists _ _ _ _ Ht p q Hp Hq) as (m & M). rewrite (lcap_of_three p r q w m Hp Hr Hq O M S Hw). exact M. }
    destruct (Nat.le_gt_cases (tin x) (tin y)); destruct (Nat.le_gt_cases (tin y) (tin z)); destruct (Nat.le_gt_cases (tin x) (tin z)); try lia.
    - exists x, z. split; [rewrite !elem_of_cons; tauto|]. split; [rewrite !elem_of_cons; tauto|]. apply (K x y z Hx Hy Hz); [lia|intros v; rewrite Hs; tauto].
    - exists x, y. split; [rewrite !elem_of_cons; tauto|]. split; [rewrite !elem_of_cons; tauto|]. apply (K x z y Hx Hz Hy); [lia|intros v; rewrite Hs; tauto].
    - exists z, y. split; [rewrite !elem_of_cons; tauto|]. split; [rewrite !elem_of_cons; tauto|]. apply (K z x y Hz Hx Hy); [lia|intros v; rewrite Hs; tauto].
    - exists y, z. split; [rewrite !elem_of_cons; tauto|]. split; [rewrite !elem_of_cons; tauto|]. apply (K y x z Hy Hx Hz); [lia|intros v; rewrite Hs; tauto].
    - exists y, x. split; [rewrite !elem_of_cons; tauto|]. split; [rewrite !elem_of_cons; tauto|]. apply (K y z x Hy Hz Hx); [lia|intros v; rewrite Hs; tauto].
    - exists z, x. split; [rewrite !elem_of_cons; tauto|]. split; [rewrite !elem_of_cons; tauto|]. apply (K z y x Hz Hy Hx); [lia|intros v; rewrite Hs; tauto].
  Qed.

  (** Sorting. *)
  Notation sorted := (Sorted (fun x y => tin x <= tin y)).
  Lemma insert_ok x l : x < n -> Forall (fun v => v < n) l -> sorted l -> exists l', tin_insert b x l = Ok l' /\ l' ≡ₚ x :: l /\ sorted l'.
  Proof.
    intros Hx. induction l as [|y l IH]; intros Hl S; cbn [tin_insert]; [exists [x]; split; [reflexivity|]; split; [reflexivity|repeat constructor]|].
    apply Forall_cons in Hl as [Hy Hl]. rewrite !tin_get by assumption. cbn [mbind res_bind]. destruct (Nat.leb_spec (tin x) (tin y)) as [Hle|Hgt].
    - exists (x :: y :: l). split; [reflexivity|]. split; [reflexivity|]. constructor; [exact S|]. constructor. exact Hle.
    - apply Sorted_inv in S as [S1 S2]. destruct (IH Hl S1) as (l' & -> & P & S'). cbn [mbind res_bind]. exists (y :: l'). split; [reflexivity|]. split; [rewrite P; apply Permutation_swap|]. constructor; [exact S'|].
      destruct l' as [|z l']; [constructor|]. constructor. assert (Hz : z ∈ x :: l) by (rewrite <- P; left). apply elem_of_cons in Hz as [->|Hz]; [lia|].
      assert (SS : StronglySorted (fun a c => tin a <= tin c) (y :: l)) by (apply Sorted_StronglySorted; [intros a c d; lia|constructor; assumption]). apply StronglySorted_inv in SS as [_ F]. rewrite Forall_forall in F. exact (F z Hz).
  Qed.
  Lemma sort_ok vs : Forall (fun v => v < n) vs -> exists l, tin_sort b vs = Ok l /\ l ≡ₚ vs /\ sorted l.
  Proof.
    intros Hv. unfold tin_sort. assert (K : forall vs l0, Forall (fun v => v < n) vs -> Forall (fun v => v < n) l0 -> sorted l0 -> exists l, rfor vs (tin_insert b) l0 = Ok l /\ l ≡ₚ vs ++ l0 /\ sorted l).
    { clear vs Hv. intros vs. induction vs as [|x vs IH]; intros l0 Hv H0 S; cbn [rfor]; [exists l0; auto|]. apply Forall_cons in Hv as [Hx Hv]. destruct (insert_ok x l0 Hx H0 S) as (l1 & -> & P & S1). cbn [mbind res_bind].
      destruct (IH l1 Hv) as (l & E & P2 & S2); [rewrite P; constructor; assumption|exact S1|]. exists l. split; [exact E|]. split; [rewrite P2, P; symmetry; apply Permutation_middle|exact S2]. }
    destruct (K vs [] Hv) as (l & E & P & S); [constructor|constructor|]. exists l. rewrite app_nil_r in P. auto.
  Qed.
  Lemma sorted_lookup l i j x y : sorted l -> i <= j -> l !! i = Some x -> l !! j = Some y -> tin x <= tin y.
  Proof.
    intros S Hij Hx Hy. apply Sorted_StronglySorted in S; [|intros a c d; lia]. revert i j Hij Hx Hy. induction S as [|z l S IH F]; intros i j Hij Hx Hy; [discriminate|]. destruct i as [|i]; destruct j as [|j]; cbn in Hx, Hy.
    - assert (x = y) by congruence. subst. lia.
    - injection Hx as <-. rewrite Forall_forall in F. apply F. eapply elem_of_list_lookup_2; eauto.
    - lia.
    - apply (IH i j); try assumption. lia.
  Qed.
  Lemma lcas_ok vs : Forall (fun v => v < n) vs -> exists ls, neighbour_lcas b vs = Ok ls /\ length ls = length vs - 1 /\
    forall i x y l, vs !! i = Some x -> vs !! S i = Some y -> ls !! i = Some l -> lcap x y l.
  Proof.
    intros Hv. unfold neighbour_lcas. destruct (decide (length vs = 0)) as [E0|E0].
    { rewrite E0. exists []. split; [reflexivity|]. split; [reflexivity|]. intros. discriminate. }
    destruct (rfor_range_inv (fun k acc => length acc = k - 1 /\ forall i x y l, vs !! i = Some x -> vs !! S i = Some y -> acc !! i = Some l -> lcap x y l) 1 (length vs) (fun i acc => x ← vget vs (i - 1); y ← vget vs i; l ← bl_lca b x y; Ok (acc ++ [l])) []) as (ls & E & L & H).
    - lia.
    - split; [reflexivity|]. intros. discriminate.
    - intros k acc Hk [L H]. destruct (lookup_lt_is_Some_2 vs (k - 1)) as [x Hx]; [lia|]. destruct (lookup_lt_is_Some_2 vs k) as [y Hy]; [lia|]. rewrite (vget_ok _ _ _ Hx), (vget_ok _ _ _ Hy). cbn [mbind res_bind].
      rewrite Forall_lookup in Hv. destruct (lca_ok g root par dep Ht level Hlev Hpow b B x y (Hv _ _ Hx) (Hv _ _ Hy)) as (l & -> & _ & Hl). cbn [mbind res_bind]. eexists. split; [reflexivity|]. split; [rewrite app_length; cbn; lia|].
      intros i x' y' l' Hx' Hy' Hl'. destruct (decide (i < length acc)) as [Hi|Hi]; [rewrite lookup_app_l in Hl' by exact Hi; exact (H i x' y' l' Hx' Hy' Hl')|].
      rewrite lookup_app_r in Hl' by lia. pose proof (lookup_lt_Some _ _ _ Hl') as Hb. cbn in Hb. replace i with (k - 1) in * by lia. replace (S (k - 1)) with k in Hy' by lia. replace (k - 1 - length acc) with 0 in Hl' by lia. cbn in Hl'. injection Hl' as <-. congruence.
    - exists ls. split; [exact E|]. split; [exact L|exact H].
  Qed.
  Lemma dedup_elem l v : v ∈ dedup l <-> v ∈ l.
  Proof.
    induction l as [|x l IH]; [reflexivity|]. cbn [dedup]. rewrite elem_of_cons, <- IH. destruct (dedup l) as [|y l']; [rewrite elem_of_list_singleton, elem_of_nil; tauto|]. destruct (Nat.eqb_spec x y) as [->|]; rewrite !elem_of_cons; tauto.
  Qed.
  Lemma dedup_length l : length (dedup l) <= length l.
  Proof. induction l as [|x l IH]; [cbn; lia|]. cbn [dedup length]. destruct (dedup l) as [|y l']; cbn [length] in *; [lia|]. destruct (x =? y); cbn [length]; lia. Qed.
  Lemma dedup_sorted l : Forall (fun v => v < n) l -> sorted l -> StronglySorted (fun x y => tin x < tin y) (dedup l).
  Proof.
    intros Hv S. apply Sorted_StronglySorted in S; [|intros a c d; lia]. induction S as [|x l S IH F]; cbn [dedup]; [constructor|]. apply Forall_cons in Hv as [Hx Hv]. specialize (IH Hv).
    pose proof (fun v => dedup_elem l v) as De. destruct (dedup l) as [|y l'] eqn:El; [repeat constructor|]. destruct (Nat.eqb_spec x y) as [->|Hne]; [exact IH|]. constructor; [exact IH|].
    apply StronglySorted_inv in IH as [_ F']. assert (Hy : y ∈ l) by (apply De; left). rewrite Forall_forall in F, Hv. assert (Hxy : tin x < tin y).
    { specialize (F y Hy). assert (tin x <> tin y) by (intros Ee; apply Hne; apply tin_inj; auto). lia. }
    apply List.Forall_cons; [exact Hxy|]. eapply Forall_impl; [exact F'|]. cbn. intros a Ha. lia.
  Qed.

  (** Any two vertices of a sorted list have their lca among those of neighbours, or are the same entry. *)
  Lemma lcas_all vs ls : Forall (fun v => v < n) vs -> sorted vs -> length ls = length vs - 1 -> (forall i x y l, vs !! i = Some x -> vs !! S i = Some y -> ls !! i = Some l -> lcap x y l) ->
    forall d i x y l, vs !! i = Some x -> vs !! (i + d) = Some y -> lcap x y l -> l ∈ vs ++ ls.
  Proof.
    intros Hv S Hl H. rewrite Forall_lookup in Hv. induction d as [|d IH]; intros i x y l Hx Hy L.
    - rewrite Nat.add_0_r in Hy. assert (x = y) as <- by congruence. assert (l = x) as -> by (eapply (lcap_unique _ _ _ _ Ht); [exact (Hv _ _ Hx)|exact L|apply lcap_anc, anc_refl]). apply elem_of_app. left. eapply elem_of_list_lookup_2; eauto.
    - pose proof (lookup_lt_Some _ _ _ Hy) as Hb. destruct (lookup_lt_is_Some_2 vs (i + d)) as [m Hm]; [lia|]. destruct (lookup_lt_is_Some_2 ls (i + d)) as [c Hc]; [lia|].
      replace (i + Datatypes.S d) with (Datatypes.S (i + d)) in Hy by lia. pose proof (H _ _ _ _ Hm Hy Hc) as C. pose proof (Hv _ _ Hx) as Hxn. pose proof (Hv _ _ Hm) as Hmn. pose proof (Hv _ _ Hy) as Hyn.
      destruct (lcap_exists _ _ _ _ Ht x m Hxn Hmn) as (a & A). destruct (lcap_three x m y a c l) as [->| ->]; try assumption.
      + split; [apply (sorted_lookup vs i (i + d))|apply (sorted_lookup vs (i + d) (Datatypes.S (i + d)))]; try assumption; lia.
      + exact (IH i x m a Hx Hm A).
      + apply elem_of_app. right. eapply elem_of_list_lookup_2; eauto.
  Qed.
  Lemma lcas_pairs vs ls x y l : Forall (fun v => v < n) vs -> sorted vs -> length ls = length vs - 1 -> (forall i x y l, vs !! i = Some x -> vs !! S i = Some y -> ls !! i = Some l -> lcap x y l) ->
    x ∈ vs -> y ∈ vs -> lcap x y l -> l ∈ vs ++ ls.
  Proof.
    intros Hv S Hl H Hx Hy L. apply elem_of_list_lookup in Hx as (i & Hi). apply elem_of_list_lookup in Hy as (j & Hj). destruct (Nat.le_gt_cases i j).
    - apply (lcas_all vs ls Hv S Hl H (j - i) i x y l); try assumption. replace (i + (j - i)) with j by lia. exact Hj.
    - apply (lcas_all vs ls Hv S Hl H (i - j) j y x l); try assumption; [|apply lcap_sym; exact L]. replace (j + (i - j)) with i by lia. exact Hi.
  Qed.
  (** Every entry of vs ++ ls is the lca of two entries of vs. *)
  Lemma lcas_from vs ls v : Forall (fun v => v < n) vs -> length ls = length vs - 1 -> (forall i x y l, vs !! i = Some x -> vs !! S i = Some y -> ls !! i = Some l -> lcap x y l) ->
    v ∈ vs ++ ls -> exists x y, x ∈ vs /\ y ∈ vs /\ lcap x y v.
  Proof.
    intros Hv Hl H Hin. apply elem_of_app in Hin as [Hin|Hin]; [exists v, v; split; [exact Hin|]; split; [exact Hin|apply lcap_anc, anc_refl]|].
    apply elem_of_list_lookup in Hin as (i & Hi). pose proof (lookup_lt_Some _ _ _ Hi). destruct (lookup_lt_is_Some_2 vs i) as [x Hx]; [lia|]. destruct (lookup_lt_is_Some_2 vs (Datatypes.S i)) as [y Hy]; [lia|].
    exists x, y. split; [eapply elem_of_list_lookup_2; eauto|]. split; [eapply elem_of_list_lookup_2; eauto|]. eauto.
  Qed.

  Lemma nodes_ok vs : Forall (fun v => v < n) vs -> exists V, virt_nodes b vs = Ok V /\ StronglySorted (fun x y => tin x < tin y) V /\ Forall (fun v => v < n) V /\ length V <= 2 * length vs - 1 /\ vs ⊆ V /\
    (forall x y l, x ∈ V -> y ∈ V -> lcap x y l -> l ∈ V) /\ forall v, v ∈ V -> exists x y, x ∈ vs /\ y ∈ vs /\ lcap x y v.
  Proof.
    intros Hv. unfold virt_nodes. destruct (sort_ok vs Hv) as (s & -> & P & S). cbn [mbind res_bind]. assert (Hs : Forall (fun v => v < n) s) by (rewrite P; exact Hv).
    destruct (lcas_ok s Hs) as (ls & -> & Hl & H). cbn [mbind res_bind].
    assert (Hall : Forall (fun v => v < n) (s ++ ls)).
    { apply Forall_forall. intros v Hin. destruct (lcas_from s ls v Hs Hl H Hin) as (x & y & Hx & _ & L). rewrite Forall_forall in Hs. exact (lcap_lt _ _ _ (Hs x Hx) L). }
    destruct (sort_ok (s ++ ls) Hall) as (a & -> & Pa & Sa). cbn [mbind res_bind]. assert (Ha : Forall (fun v => v < n) a) by (rewrite Pa; exact Hall).
    assert (Hel : forall v, v ∈ dedup a <-> v ∈ s ++ ls) by (intros v; rewrite dedup_elem, Pa; reflexivity).
    assert (Hsv : forall v, v ∈ s <-> v ∈ vs) by (intros v; rewrite P; reflexivity).
    exists (dedup a). split; [reflexivity|]. split; [apply dedup_sorted; assumption|]. split; [apply Forall_forall; intros v Hin; apply Hel in Hin; rewrite Forall_forall in Hall; exact (Hall v Hin)|].
    split; [pose proof (dedup_length a) as D; rewrite (Permutation_length Pa), app_length, Hl, (Permutation_length P) in D; lia|].
    split; [intros v Hin; apply Hel, elem_of_app; left; apply Hsv; exact Hin|]. split.
    - intros x y l Hx Hy L. apply Hel. apply Hel in Hx, Hy. destruct (lcas_from s ls x Hs Hl H Hx) as (a1 & a2 & A1 & A2 & LA). destruct (lcas_from s ls y Hs Hl H Hy) as (c1 & c2 & C1 & C2 & LC).
      rewrite Forall_forall in Hs. pose proof (Hs _ A1). pose proof (Hs _ A2). pose proof (Hs _ C1). pose proof (Hs _ C2). pose proof (lcap_lt _ _ _ (Hs _ A1) LA) as Hxn.
      destruct (lcap_exists _ _ _ _ Ht x c1 Hxn (Hs _ C1)) as (m & M). destruct (lcap_two a1 a2 c1 x m) as (p & q & Hp & Hq & LPQ); try assumption.
      assert (In3 : forall z, z ∈ [a1; a2; c1] -> z ∈ s) by (intros z Hz; rewrite !elem_of_cons, elem_of_nil in Hz; destruct Hz as [->|[->|[->|[]]]]; assumption).
      pose proof (In3 p Hp) as Hps. pose proof (In3 q Hq) as Hqs. pose proof (lcap_lt _ _ _ (Hs _ Hps) LPQ) as Hmn. destruct (lcap_exists _ _ _ _ Ht m c2 Hmn (Hs _ C2)) as (w & W).
      destruct (lcap_two p q c2 m w) as (p' & q' & Hp' & Hq' & LPQ'); try assumption; [exact (Hs _ Hps)|exact (Hs _ Hqs)|].
      assert (l = w) as ->.
      { pose proof (lcap_lt _ _ _ Hxn L) as Hln. pose proof (lcap_lt _ _ _ Hmn W) as Hwn. apply (anc_antisym _ _ _ _ Ht); try assumption.
        - apply (lcap_spec _ _ _ l W). split; [apply (lcap_spec _ _ _ l M)|]; [split|]; try apply (proj1 (lcap_spec _ _ _ l L) (anc_refl par l)); destruct (proj1 (lcap_spec _ _ _ l L) (anc_refl par l)) as [_ Q]; apply (lcap_spec _ _ _ l LC) in Q; tauto.
        - destruct (proj1 (lcap_spec _ _ _ w W) (anc_refl par w)) as [Q1 Q2]. apply (lcap_spec _ _ _ w M) in Q1 as [Q1 Q3]. apply (lcap_spec _ _ _ w L). split; [exact Q1|]. apply (lcap_spec _ _ _ w LC). auto. }
      assert (In3' : forall z, z ∈ [p; q; c2] -> z ∈ s) by (intros z Hz; rewrite !elem_of_cons, elem_of_nil in Hz; destruct Hz as [->|[->|[->|[]]]]; assumption).
      apply (lcas_pairs s ls p' q' w); try assumption; [apply Forall_forall; exact Hs|apply In3'; exact Hp'|apply In3'; exact Hq'].
    - intros v Hin. apply Hel in Hin. destruct (lcas_from s ls v Hs Hl H Hin) as (x & y & Hx & Hy & L). exists x, y. rewrite <- !Hsv. auto.
  Qed.
  Lemma tree_ok vs V : Forall (fun v => v < n) V -> StronglySorted (fun x y => tin x < tin y) V -> (forall x y l, x ∈ V -> y ∈ V -> lcap x y l -> l ∈ V) -> virt_nodes b vs = Ok V ->
    exists ps, virt_tree b vs = Ok (V, ps) /\ length ps = length V - 1 /\
      (forall i x p, V !! S i = Some x -> ps !! i = Some p -> p ∈ V /\ p <> x /\ anc p x /\ forall w, w ∈ V -> w <> x -> anc w x -> anc w p) /\
      forall r x, V !! 0 = Some r -> x ∈ V -> anc r x.
  Proof.
    intros Hv S Hc E. unfold virt_tree. rewrite E. cbn [mbind res_bind]. destruct (lcas_ok V Hv) as (ps & -> & Hl & H). cbn [mbind res_bind]. exists ps. split; [reflexivity|]. split; [exact Hl|]. rewrite Forall_forall in Hv. split.
    - intros i x p Hx Hp. pose proof (lookup_lt_Some _ _ _ Hx) as Hb. destruct (lookup_lt_is_Some_2 V i) as [y Hy]; [lia|]. pose proof (H i y x p Hy Hx Hp) as L. pose proof (elem_of_list_lookup_2 _ _ _ Hx) as Ix. pose proof (elem_of_list_lookup_2 _ _ _ Hy) as Iy.
      pose proof (Hv _ Ix) as Hxn. pose proof (Hv _ Iy) as Hyn. pose proof (ssorted_lookup _ _ i (Datatypes.S i) y x S ltac:(lia) Hy Hx) as Ht'. cbn in Ht'. pose proof L as (L1 & L2 & L3).
      split; [exact (Hc y x p Iy Ix L)|]. split; [intros ->; apply anc_tin in L1; try assumption; lia|]. split; [exact L2|].
      intros w Hw Hne Aw. apply L3; [|exact Aw]. pose proof (Hv _ Hw) as Hwn. pose proof Aw as Aw'. apply anc_tin in Aw; try assumption. apply elem_of_list_lookup in Hw as (j & Hj).
      assert (tin w <> tin x) by (intros F; apply Hne; apply tin_inj; assumption).
      assert (j <= i). { destruct (decide (j <= i)) as [|Hn]; [assumption|]. exfalso. destruct (decide (j = Datatypes.S i)) as [->|Hn']; [assert (w = x) by congruence; congruence|]. pose proof (ssorted_lookup _ _ (Datatypes.S i) j x w S ltac:(lia) Hx Hj) as F. cbn in F. lia. }
      apply anc_tin; try assumption. split; [|lia]. destruct (decide (j = i)) as [->|]; [assert (w = y) by congruence; subst; lia|]. pose proof (ssorted_lookup _ _ j i w y S ltac:(lia) Hj Hy) as F. cbn in F. lia.
    - intros r x Hr Hx. pose proof (elem_of_list_lookup_2 _ _ _ Hr) as Ir. destruct (lcap_exists _ _ _ _ Ht r x (Hv _ Ir) (Hv _ Hx)) as (l & L). pose proof (Hc r x l Ir Hx L) as Il. pose proof L as (L1 & L2 & _).
      assert (l = r) as ->; [|exact L2]. apply elem_of_list_lookup in Il as (j & Hj). destruct j as [|j]; [congruence|]. exfalso. pose proof (ssorted_lookup _ _ 0 (Datatypes.S j) r l S ltac:(lia) Hr Hj) as F. cbn in F.
      apply anc_tin in L1; [lia| |]; apply Hv; [eapply elem_of_list_lookup_2; eauto|exact Ir].
  Qed.
End virt.
