From Coq Require Import Sorting.Sorted.
From stdpp Require Import sorting.
From Verif Require Import Prelude ArraySpec FenwickModel FenwickSpec FenwickProof SegtreeModel SegtreeSpec SegtreeProof TallyModel TallySpec.

Lemma snoc_sorted {T} (R : T -> T -> Prop) l x : StronglySorted R l -> Forall (fun y => R y x) l -> StronglySorted R (l ++ [x]).
Proof.
  induction 1 as [|y l H IH Hy]; intros F; cbn; [repeat constructor|]. inversion F; subst. constructor; [auto|]. apply Forall_app. split; [exact Hy|]. constructor; [assumption|constructor].
Qed.
(** ** Tallies *)
Lemma zsum_laws : monoid_laws 0%Z Z.add.
Proof. constructor; intros; lia. Qed.
Definition tally (n : nat) (bag : list nat) : list Z := map (fun v => Z.of_nat (count_occ Nat.eq_dec bag v)) (seq 0 n).
Definition below (x : nat) (bag : list nat) : nat := length (filter (fun y => y < x) bag).
Lemma tally_length n bag : length (tally n bag) = n.
Proof. unfold tally. rewrite map_length, seq_length. reflexivity. Qed.
Lemma tally_lookup n bag v : v < n -> tally n bag !! v = Some (Z.of_nat (count_occ Nat.eq_dec bag v)).
Proof. intros H. unfold tally. rewrite list_lookup_fmap, lookup_seq_lt by exact H. reflexivity. Qed.
Lemma below_S x bag : below (S x) bag = below x bag + count_occ Nat.eq_dec bag x.
Proof.
  unfold below. induction bag as [|y bag IH]; [reflexivity|]. rewrite !filter_cons. cbn [count_occ].
  destruct (decide (y < S x)), (decide (y < x)), (Nat.eq_dec y x); cbn [length]; lia.
Qed.
Lemma tally_sum n bag i : i <= n -> mprod 0%Z Z.add (slice (tally n bag) 0 i) = Z.of_nat (below i bag).
Proof.
  induction i as [|i IH]; intros Hi.
  - rewrite slice_nil by lia. cbn. unfold below. assert (E : filter (fun y => y < 0) bag = []) by (induction bag as [|y bag IHb]; [reflexivity|]; rewrite filter_cons, decide_False by lia; exact IHb). rewrite E. reflexivity.
  - rewrite <- Nat.add_1_r, (P_snoc _ _ zsum_laws (tally n bag) 0 i (Z.of_nat (count_occ Nat.eq_dec bag i))) by (try lia; apply tally_lookup; lia).
    rewrite IH, Nat.add_1_r, below_S by lia. lia.
Qed.
Lemma tally_insert n bag bag' x d : x < n -> (forall v, Z.of_nat (count_occ Nat.eq_dec bag' v) = Z.of_nat (count_occ Nat.eq_dec bag v) + (if decide (v = x) then d else 0))%Z ->
  match tally n bag !! x with Some y => <[x := (y + d)%Z]> (tally n bag) | None => tally n bag end = tally n bag'.
Proof.
  intros Hx H. rewrite tally_lookup by exact Hx. apply list_eq. intros v. destruct (decide (v < n)) as [Hv|Hv]; [|rewrite !lookup_ge_None_2 by (rewrite ?insert_length, tally_length; lia); reflexivity].
  rewrite (tally_lookup n bag' v Hv), H. destruct (decide (v = x)) as [->|Hne].
  - rewrite list_lookup_insert by (rewrite tally_length; exact Hx). reflexivity.
  - rewrite list_lookup_insert_ne by auto. rewrite tally_lookup by exact Hv. f_equal. lia.
Qed.
Lemma below_all n bag : Forall (fun y => y < n) bag -> below n bag = length bag.
Proof. intros H. unfold below. induction H as [|y bag Hy _ IH]; [reflexivity|]. rewrite filter_cons, decide_True by exact Hy. cbn. lia. Qed.
Lemma below_le n bag : below n bag <= length bag.
Proof. unfold below. apply filter_length. Qed.
Lemma below_perm x l l' : l ≡ₚ l' -> below x l = below x l'.
Proof. intros H. unfold below. rewrite H. reflexivity. Qed.
Lemma below_app x l l' : below x (l ++ l') = below x l + below x l'.
Proof. unfold below. rewrite filter_app, app_length. reflexivity. Qed.
Lemma below_none x l : Forall (fun y => x <= y) l -> below x l = 0.
Proof. intros H. unfold below. induction H as [|y l Hy _ IH]; [reflexivity|]. rewrite filter_cons, decide_False by lia. exact IH. Qed.

Lemma sorted_split (l1 l2 : list nat) y : StronglySorted le (l1 ++ y :: l2) -> Forall (fun z => z <= y) l1 /\ Forall (fun z => y <= z) l2.
Proof.
  induction l1 as [|x l1 IH]; cbn; intros H; inversion H as [|? ? H1 H2]; subst; [split; [constructor|exact H2]|].
  destruct (IH H1) as [A B]. split; [|exact B]. constructor; [|exact A]. rewrite Forall_forall in H2. apply H2, elem_of_app. right. left.
Qed.
Lemma kth_sorted s k r : StronglySorted le s -> below r s <= k < below (S r) s -> s !! k = Some r.
Proof.
  intros Hs Hk. pose proof (below_le (S r) s). destruct (lookup_lt_is_Some_2 s k) as [y Hy]; [lia|]. rewrite Hy. f_equal.
  pose proof (take_drop_middle s k y Hy) as E. rewrite <- E in Hs, Hk. destruct (sorted_split _ _ _ Hs) as [A B].
  assert (Lk : length (take k s) = k) by (apply take_length_le; apply lookup_lt_Some in Hy; lia).
  rewrite !below_app in Hk. destruct (Nat.lt_trichotomy y r) as [Hlt|[->|Hgt]]; [|reflexivity|]; exfalso.
  - rewrite (below_all r (take k s)) in Hk by (eapply Forall_impl; [exact A|cbn; lia]). unfold below at 1 in Hk. rewrite filter_cons, decide_True in Hk by lia. cbn [length] in Hk. lia.
  - rewrite (below_none (S r) (y :: drop (S k) s)) in Hk by (constructor; [lia|]; eapply Forall_impl; [exact B|cbn; lia]). pose proof (below_le (S r) (take k s)). lia.
Qed.

Lemma sorted_copy (bag : list nat) : exists s, s ≡ₚ bag /\ StronglySorted le s.
Proof. exists (merge_sort le bag). split; [apply merge_sort_Permutation|]. apply StronglySorted_merge_sort; apply _. Qed.

Lemma tally_run n ops : (Z.of_nat n < 2 ^ 64)%Z -> 0 < n -> forall bag t, Forall (fun y => y < n) bag -> FInv 0%Z Z.add t (tally n bag) -> tally_legal n bag ops ->
  exists t' outs, run tally_step t ops = Ok (t', outs) /\ tally_spec n bag ops outs.
Proof.
  intros HZ Hn0. induction ops as [|o ops IH]; intros bag t Hb I Hl; [exists t, []; split; [reflexivity|constructor]|].
  inversion Hl as [|? x ? Hx Hl'|? bag' x ? Hp Hl'|? x ? Hx Hl'|? k ? Hl']; subst; cbn [run tally_step].
  - destruct (add_ok 0%Z Z.add Z.sub Z.add zsum_laws t _ I x 1%Z Z.add_comm ltac:(intros; lia)) as (t' & E & I').
    rewrite (tally_insert n bag (x :: bag) x 1%Z Hx) in I'.
    + rewrite E. cbn [mbind res_bind]. destruct (IH (x :: bag) t') as (t2 & outs & E2 & S2); [constructor; assumption|exact I'|exact Hl'|]. rewrite E2. cbn [mbind res_bind].
      exists t2, (TUnit :: outs). split; [reflexivity|]. constructor; assumption.
    + intros v. cbn [count_occ]. destruct (Nat.eq_dec x v), (decide (v = x)); lia.
  - assert (Hx : x < n) by (rewrite Forall_forall in Hb; apply Hb; rewrite Hp; left).
    destruct (add_ok 0%Z Z.add Z.sub Z.add zsum_laws t _ I x (-1)%Z Z.add_comm ltac:(intros; lia)) as (t' & E & I').
    rewrite (tally_insert n bag bag' x (-1)%Z Hx) in I'.
    + rewrite E. cbn [mbind res_bind]. destruct (IH bag' t') as (t2 & outs & E2 & S2); [rewrite Hp in Hb; inversion Hb; assumption|exact I'|exact Hl'|]. rewrite E2. cbn [mbind res_bind].
      exists t2, (TUnit :: outs). split; [reflexivity|]. econstructor; eassumption.
    + intros v. rewrite (proj1 (Permutation_count_occ Nat.eq_dec bag (x :: bag')) Hp v). cbn [count_occ]. destruct (Nat.eq_dec x v), (decide (v = x)); lia.
  - rewrite (pref_ok 0%Z Z.add zsum_laws t _ I x Z.add_comm) by (rewrite tally_length; exact Hx). cbn [mbind res_bind].
    destruct (IH bag t Hb I Hl') as (t2 & outs & E2 & S2). rewrite E2. cbn [mbind res_bind]. eexists _, _. split; [reflexivity|]. rewrite tally_sum by exact Hx. constructor; assumption.
  - destruct (partition_point_ok 0%Z Z.add zsum_laws t _ I (fun c => (c <=? Z.of_nat k)%Z)) as (r & E & Hr & Hlo & Hhi); [rewrite tally_length; exact Hn0|rewrite tally_length; exact HZ|].
    rewrite tally_length in Hr, Hhi. rewrite E. cbn [mbind res_bind]. destruct (IH bag t Hb I Hl') as (t2 & outs & E2 & S2). rewrite E2. cbn [mbind res_bind].
    destruct (sorted_copy bag) as (s & Hp & Hs). exists t2, (TIndex r :: outs). split; [reflexivity|].
    enough (r = default n (s !! k)) as -> by (econstructor; eassumption).
    assert (H1 : below r bag <= k). { destruct r as [|r]; [rewrite below_none; [lia|apply Forall_forall; lia]|]. specialize (Hlo ltac:(lia)). rewrite tally_sum in Hlo by lia. apply Z.leb_le in Hlo. lia. }
    destruct (decide (r < n)) as [Hrn|Hrn].
    + specialize (Hhi Hrn). rewrite tally_sum in Hhi by lia. apply Z.leb_gt in Hhi. rewrite Nat.add_1_r in Hhi.
      rewrite (kth_sorted s k r Hs); [reflexivity|]. rewrite !(below_perm _ s bag Hp). lia.
    + assert (r = n) by lia. subst r. rewrite (below_all n bag Hb) in H1. rewrite lookup_ge_None_2 by (rewrite Hp; lia). reflexivity.
Qed.
Lemma tally_nil n : tally n [] = replicate n 0%Z.
Proof.
  apply list_eq. intros v. destruct (decide (v < n)); [rewrite tally_lookup, lookup_replicate_2 by assumption; reflexivity|rewrite !lookup_ge_None_2 by (rewrite ?tally_length, ?replicate_length; lia); reflexivity].
Qed.

(** ** Inversions *)
Lemma inversions_snoc a x : inversions (a ++ [x]) = inversions a + (length a - below (S x) a).
Proof.
  induction a as [|y a IH]; [reflexivity|]. cbn [app inversions length]. rewrite IH, filter_app, app_length. pose proof (below_le (S x) a) as H.
  unfold below in *. rewrite !filter_cons. cbn [filter list_filter].
  destruct (decide (y < S x)), (decide (x < y)); cbn [length]; try (exfalso; lia); lia.
Qed.
Lemma inversions_ok n a : Forall (fun x => x < n) a -> count_inversions n a = Ok (Z.of_nat (inversions a)).
Proof.
  intros Ha. unfold count_inversions.
  destruct (rfor_inv (fun done '(t, i, ans) => FInv 0%Z Z.add t (tally n done) /\ i = Z.of_nat (length done) /\ ans = Z.of_nat (inversions done)) a
    (fun x '(t, i, ans) => c ← fw_pref 0%Z Z.add t (x + 1); t ← fw_add Z.add t x 1%Z; Ok (t, (i + 1)%Z, (ans + (i - c))%Z)) (fw_new 0%Z n, 0%Z, 0%Z)) as ([[t i] ans] & E & _ & _ & Hans).
  - rewrite tally_nil. split; [apply fw_new_inv; exact zsum_laws|]. auto.
  - intros done x rest [[t i] ans] Hsp (I & -> & ->). assert (Hx : x < n) by (rewrite Hsp in Ha; apply Forall_app in Ha as [_ Ha]; inversion Ha; assumption).
    rewrite (pref_ok 0%Z Z.add zsum_laws t _ I (x + 1) Z.add_comm) by (rewrite tally_length; lia). cbn [mbind res_bind].
    destruct (add_ok 0%Z Z.add Z.sub Z.add zsum_laws t _ I x 1%Z Z.add_comm ltac:(intros; lia)) as (t' & E & I').
    rewrite (tally_insert n done (done ++ [x]) x 1%Z Hx) in I'.
    + rewrite E. cbn [mbind res_bind]. eexists. split; [reflexivity|]. split; [exact I'|]. rewrite tally_sum, app_length, inversions_snoc, (Nat.add_1_r x) by lia. cbn [length].
      pose proof (below_le (S x) done). lia.
    + intros v. rewrite count_occ_app. cbn [count_occ]. destruct (Nat.eq_dec x v), (decide (v = x)); lia.
  - rewrite E. cbn [mbind res_bind]. rewrite Hans. reflexivity.
Qed.

(** ** Longest increasing subsequences *)
Lemma max_laws : monoid_laws 0 Nat.max.
Proof. constructor; intros; lia. Qed.
Lemma mmax_ge l x : x ∈ l -> x <= mprod 0 Nat.max l.
Proof. induction 1 as [x l|x y l _ IH]; cbn; [|fold (mprod 0 Nat.max l)]; lia. Qed.
Lemma mmax_in l : mprod 0 Nat.max l = 0 \/ mprod 0 Nat.max l ∈ l.
Proof.
  induction l as [|x l IH]; [left; reflexivity|]. cbn. fold (mprod 0 Nat.max l). destruct (Nat.max_spec x (mprod 0 Nat.max l)) as [[_ ->]|[_ ->]]; [|right; left].
  destruct IH as [->|IH]; [left; reflexivity|right; right; exact IH].
Qed.
Lemma snoc_sublist (l k : list nat) v x : l ++ [v] `sublist_of` k ++ [x] -> l ++ [v] `sublist_of` k \/ v = x /\ l `sublist_of` k.
Proof.
  intros H. apply sublist_app_r in H as (l1 & l2 & E & H1 & H2). destruct l2 as [|y l2] using rev_ind; [rewrite app_nil_r in E; subst; auto|]. clear IHl2.
  rewrite app_assoc in E. apply app_inj_tail in E as [-> ->]. assert (l2 = [] /\ y = x) as [-> ->].
  { apply sublist_length in H2 as Hl. rewrite app_length in Hl. cbn in Hl. destruct l2; [|cbn in Hl; lia]. cbn in H2. inversion H2 as [|? ? ? H3|? ? ? H3]; subst; [auto|inversion H3]. }
  right. rewrite app_nil_r. auto.
Qed.
Lemma sorted_snoc_inv (l : list nat) x : StronglySorted lt (l ++ [x]) -> StronglySorted lt l /\ Forall (fun y => y < x) l.
Proof.
  induction l as [|y l IH]; cbn; intros H; [split; constructor|]. inversion H as [|? ? H1 H2]; subst. destruct (IH H1) as [A B]. apply Forall_app in H2 as [H2 H3]. inversion H3; subst.
  split; constructor; assumption.
Qed.
(** The table: for each value, the length of a longest increasing subsequence ending in it. *)
Definition best (done : list nat) (v d : nat) : Prop :=
  (d = 0 \/ exists l, l ++ [v] `sublist_of` done /\ StronglySorted lt (l ++ [v]) /\ length l + 1 = d) /\
  forall l, l ++ [v] `sublist_of` done -> StronglySorted lt (l ++ [v]) -> length l + 1 <= d.
Lemma lis_ok n a : (Z.of_nat n < 2 ^ 32)%Z -> Forall (fun x => x < n) a -> exists L, lis n a = Ok L /\ longest_increasing a L.
Proof.
  intros Hn Ha. unfold lis, st_new. destruct (st_from_inv 0 Nat.max (replicate n 0)) as (t0 & -> & I0); [rewrite replicate_length; exact Hn|]. cbn [mbind res_bind].
  destruct (rfor_inv (fun done (t : segtree nat) => exists d, Inv 0 Nat.max t d /\ length d = n /\ forall v y, d !! v = Some y -> best done v y) a
    (fun x t => b ← st_prod 0 Nat.max t 0 x; c ← st_get t x; st_set Nat.max t x (Nat.max c (b + 1))) t0) as (t & E & d & I & Ld & Hd).
  - exists (replicate n 0). split; [exact I0|]. split; [apply replicate_length|]. intros v y Hy. apply lookup_replicate in Hy as [-> _]. split; [auto|].
    intros l Hl _. apply sublist_length in Hl. rewrite app_length in Hl. cbn in Hl. lia.
  - intros done x rest t Hsp (d & I & Ld & Hd). assert (Hx : x < n) by (rewrite Hsp in Ha; apply Forall_app in Ha as [_ Ha]; inversion Ha; assumption).
    rewrite (prod_ok 0 Nat.max max_laws t d I 0 x) by (rewrite (inv_n _ _ _ _ I); lia). cbn [mbind res_bind].
    rewrite (get_ok 0 Nat.max t d I x). destruct (lookup_lt_is_Some_2 d x) as [c Hc]; [lia|]. rewrite Hc. cbn [mbind res_bind].
    destruct (set_ok 0 Nat.max t d I x (Nat.max c (mprod 0 Nat.max (slice d 0 x) + 1))) as (t' & -> & I'); [rewrite (inv_n _ _ _ _ I); lia|].
    exists t'. split; [reflexivity|]. eexists. split; [exact I'|]. split; [rewrite insert_length; exact Ld|].
    intros v y Hy. destruct (decide (v = x)) as [->|Hne].
    + rewrite list_lookup_insert in Hy by lia. injection Hy as <-. destruct (Hd x c Hc) as [A B]. split.
      * right. destruct (Nat.max_spec c (mprod 0 Nat.max (slice d 0 x) + 1)) as [[_ ->]|[Hge ->]].
        -- destruct (mmax_in (slice d 0 x)) as [E0|Hin].
           ++ exists []. rewrite E0. split; [|split; [repeat constructor|reflexivity]]. cbn. apply sublist_inserts_l. reflexivity.
           ++ unfold slice in Hin. rewrite drop_0 in Hin. apply elem_of_list_lookup in Hin as [w Hw]. apply lookup_take_Some in Hw as [Hw Hwx].
              destruct (Hd w _ Hw) as [[E0|(l & L1 & L2 & L3)] _].
              ** exists []. unfold slice. rewrite drop_0. rewrite E0. split; [|split; [repeat constructor|reflexivity]]. cbn. apply sublist_inserts_l. reflexivity.
              ** exists (l ++ [w]). split; [apply sublist_app; [exact L1|reflexivity]|]. split.
                 --- apply snoc_sorted; [exact L2|]. apply Forall_app. destruct (sorted_snoc_inv l w L2) as [_ F]. split; [eapply Forall_impl; [exact F|cbn; lia]|]. constructor; [lia|constructor].
                 --- rewrite app_length. cbn. unfold slice. rewrite drop_0. lia.
        -- destruct A as [->|(l & L1 & L2 & L3)]; [lia|]. exists l. split; [|auto]. apply sublist_inserts_r. exact L1.
      * intros l Hl Hs. apply snoc_sublist in Hl as [Hl|[_ Hl]]; [specialize (B l Hl Hs); lia|].
        destruct l as [|w l _] using rev_ind; [cbn; lia|]. destruct (sorted_snoc_inv _ _ Hs) as [Hs' Hw]. apply Forall_app in Hw as [_ Hw]. inversion Hw as [|? ? Hwx _]; subst.
        destruct (lookup_lt_is_Some_2 d w) as [y Hy]; [lia|]. destruct (Hd w y Hy) as [_ B']. specialize (B' l Hl Hs'). rewrite app_length. cbn.
        assert (y <= mprod 0 Nat.max (slice d 0 x)). { apply mmax_ge. unfold slice. rewrite drop_0. apply (elem_of_list_lookup_2 _ w). rewrite lookup_take by lia. exact Hy. }
        lia.
    + rewrite list_lookup_insert_ne in Hy by auto. destruct (Hd v y Hy) as [A B]. split.
      * destruct A as [->|(l & L1 & L2 & L3)]; [auto|]. right. exists l. split; [|auto]. apply sublist_inserts_r. exact L1.
      * intros l Hl Hs. apply snoc_sublist in Hl as [Hl|[-> _]]; [auto|contradiction].
  - rewrite E. cbn [mbind res_bind]. rewrite (all_prod_ok 0 Nat.max max_laws t d I). eexists. split; [reflexivity|]. split.
    + destruct (mmax_in d) as [->|Hin]; [exists []; split; [apply sublist_nil_l|split; [constructor|reflexivity]]|]. apply elem_of_list_lookup in Hin as [v Hv].
      destruct (Hd v _ Hv) as [[E0|(l & L1 & L2 & L3)] _]; [rewrite E0; exists []; split; [apply sublist_nil_l|split; [constructor|reflexivity]]|].
      exists (l ++ [v]). rewrite app_length. cbn. auto.
    + intros l Hl Hs. destruct l as [|v l _] using rev_ind; [cbn; lia|]. assert (Hv : v < n).
      { rewrite Forall_forall in Ha. apply Ha. eapply elem_of_submseteq; [|apply sublist_submseteq; exact Hl]. apply elem_of_app. right. left. }
      destruct (lookup_lt_is_Some_2 d v) as [y Hy]; [lia|]. destruct (Hd v y Hy) as [_ B]. specialize (B l Hl Hs). rewrite app_length. cbn.
      pose proof (mmax_ge d y (elem_of_list_lookup_2 _ _ _ Hy)). lia.
Qed.
