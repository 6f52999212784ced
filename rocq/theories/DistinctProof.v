From Verif Require Import Prelude ArraySpec FenwickModel FenwickSpec FenwickProof TallyModel TallySpec TallyProof LexProof DistinctModel DistinctSpec.
Close Scope Z_scope.

(** j is the last place of x among the first i. *)
Definition last_at (a : list nat) (i x j : nat) : Prop := j < i /\ a !! j = Some x /\ forall j', j < j' < i -> a !! j' <> Some x.
Lemma last_uniq a i x j j' : last_at a i x j -> last_at a i x j' -> j = j'.
Proof. intros (H1 & H2 & H3) (K1 & K2 & K3). destruct (Nat.lt_trichotomy j j') as [H|[H|H]]; [exfalso; apply (H3 j'); [lia|exact K2]|exact H|exfalso; apply (K3 j); [lia|exact H2]]. Qed.
Lemma last_exists a i x p : p < i -> a !! p = Some x -> exists j, p <= j /\ last_at a i x j.
Proof.
  intros Hp Hx. remember (i - p) as k eqn:Ek. revert p Hp Hx Ek. induction k as [k IH] using lt_wf_ind. intros p Hp Hx Ek.
  destruct (decide (Exists (fun j => a !! j = Some x) (seq (S p) (i - S p)))) as [H|H].
  - apply Exists_exists in H as (q & Hq%elem_of_seq & Hqx). destruct (IH (i - q) ltac:(lia) q ltac:(lia) Hqx eq_refl) as (j & H1 & H2). exists j. split; [lia|exact H2].
  - exists p. split; [lia|]. split; [exact Hp|]. split; [exact Hx|]. intros j' Hj' E. apply H, Exists_exists. exists j'. split; [apply elem_of_seq; lia|exact E].
Qed.
Record dinv (m : nat) (a : list nat) (i : nat) (t : fenwick Z) (last : list (option nat)) : Prop := {
  di_bag : exists bag, FInv 0%Z Z.add t (tally (length a) bag) /\ NoDup bag /\ forall j, j ∈ bag <-> exists x, last_at a i x j;
  di_len : length last = m;
  di_last : forall x o, last !! x = Some o -> (forall j, o = Some j <-> last_at a i x j) }.
Lemma bag_add n t bag x : FInv 0%Z Z.add t (tally n bag) -> x < n -> exists t', fw_add Z.add t x 1%Z = Ok t' /\ FInv 0%Z Z.add t' (tally n (x :: bag)).
Proof.
  intros I Hx. destruct (add_ok 0%Z Z.add Z.sub Z.add zsum_laws t _ I x 1%Z Z.add_comm ltac:(intros; lia)) as (t' & E & I'). rewrite (tally_insert n bag (x :: bag) x 1%Z Hx) in I'; [eauto|].
  intros v. cbn [count_occ]. destruct (Nat.eq_dec x v), (decide (v = x)); lia.
Qed.
Lemma last_step a i x : a !! i = Some x -> forall y j, last_at a (S i) y j <-> (y = x /\ j = i) \/ (y <> x /\ last_at a i y j).
Proof.
  intros Hx y j. split.
  - intros (H1 & H2 & H3). destruct (decide (y = x)) as [->|Hy].
    + left. split; [reflexivity|]. destruct (decide (j = i)); [assumption|]. exfalso. apply (H3 i); [lia|exact Hx].
    + right. split; [exact Hy|]. split; [|split; [exact H2|intros j' Hj'; apply H3; lia]]. destruct (decide (j = i)) as [->|]; [congruence|lia].
  - intros [[-> ->]|[Hy (H1 & H2 & H3)]].
    + split; [lia|]. split; [exact Hx|]. intros j' Hj'. lia.
    + split; [lia|]. split; [exact H2|]. intros j' Hj'. destruct (decide (j' = i)) as [->|]; [congruence|apply H3; lia].
Qed.
Lemma above_count l bag : length (filter (fun j => l <= j) bag) + below l bag = length bag.
Proof. unfold below. induction bag as [|y bag IH]; [reflexivity|]. rewrite !filter_cons. destruct (decide (l <= y)), (decide (y < l)); cbn [length]; lia. Qed.
Lemma section_count a i bag l : NoDup bag -> (forall j, j ∈ bag <-> exists x, last_at a i x j) -> i <= length a -> distinct (drop l (take i a)) (length bag - below l bag).
Proof.
  intros N B Hi. exists ((fun j => default 0 (a !! j)) <$> filter (fun j => l <= j) bag). split; [|split].
  - apply NoDup_fmap_2_strong; [|apply NoDup_filter; exact N]. intros j j' [_ Hj]%elem_of_list_filter [_ Hj']%elem_of_list_filter E. apply B in Hj as (x & Hx). apply B in Hj' as (x' & Hx').
    destruct Hx as (A1 & A2 & A3) eqn:Q1. destruct Hx' as (C1 & C2 & C3) eqn:Q2. rewrite A2, C2 in E. cbn in E. subst x'. apply (last_uniq a i x); split_and!; assumption.
  - intros x. rewrite elem_of_list_fmap. split.
    + intros (j & -> & [Hl Hj]%elem_of_list_filter). apply B in Hj as (x & H1 & H2 & _). rewrite H2. cbn. apply elem_of_list_lookup. exists (j - l). rewrite lookup_drop, lookup_take by lia. rewrite <- H2. f_equal. lia.
    + intros (p & Hp)%elem_of_list_lookup. rewrite lookup_drop in Hp. pose proof (lookup_lt_Some _ _ _ Hp) as Hlt. rewrite take_length in Hlt. rewrite lookup_take in Hp by lia.
      destruct (last_exists a i x (l + p) ltac:(lia) Hp) as (j & Hj & HL). exists j. split; [destruct HL as (_ & -> & _); reflexivity|]. apply elem_of_list_filter. split; [lia|]. apply B. eauto.
  - rewrite fmap_length. pose proof (above_count l bag). lia.
Qed.
Lemma answers n t bag i ls : FInv 0%Z Z.add t (tally n bag) -> Forall (fun j => j < i) bag -> i <= n -> Forall (fun l => l <= n) ls -> forall r,
  rfor ls (fun l r => z ← fw_sum 0%Z Z.add Z.sub t l i; Ok (r ++ [z])) r = Ok (r ++ map (fun l => Z.of_nat (length bag - below l bag)) ls).
Proof.
  intros I Hb Hi Hl. induction Hl as [|l ls Hl _ IH]; intros r; cbn [rfor map]; [rewrite app_nil_r; reflexivity|].
  assert (fw_sum 0%Z Z.add Z.sub t l i = Ok (Z.of_nat (length bag - below l bag))) as ->.
  { unfold fw_sum. rewrite (bag_pref n t bag i I Hi), (bag_pref n t bag l I Hl). cbn [mbind res_bind]. rewrite (below_all i bag Hb). pose proof (above_count l bag). f_equal. lia. }
  cbn [mbind res_bind]. rewrite IH, <- app_assoc. reflexivity.
Qed.
Lemma turn_ok m a qs i t last out ls : dinv m a i t last -> Forall (fun x => x < m) a -> i < length a -> qs !! i = Some ls -> Forall (fun l => l <= length a) ls ->
  exists t' last' r, distinct_turn a qs i (t, last, out) = Ok (t', last', out ++ [r]) /\ dinv m a (S i) t' last' /\ Forall2 (fun l z => exists k, z = Z.of_nat k /\ distinct (drop l (take (S i) a)) k) ls r.
Proof.
  intros [(bag & I & N & B) L D] Ha Hi Hq Hls. destruct (lookup_lt_is_Some_2 a i Hi) as [x Hx]. assert (Hxm : x < m) by (rewrite Forall_lookup in Ha; exact (Ha i x Hx)).
  destruct (lookup_lt_is_Some_2 last x ltac:(lia)) as [o Ho]. specialize (D x) as Dx. specialize (Dx o Ho).
  assert (exists t1 bag1, match o with Some j => fw_add Z.add t j (-1)%Z | None => Ok t end = Ok t1 /\ FInv 0%Z Z.add t1 (tally (length a) bag1) /\ NoDup bag1 /\ forall j, j ∈ bag1 <-> exists y, y <> x /\ last_at a i y j) as (t1 & bag1 & E1 & I1 & N1 & B1).
  { destruct o as [j|].
    - pose proof (proj1 (Dx j) eq_refl) as Hj. assert (j ∈ bag) as Hjb by (apply B; eauto). apply elem_of_Permutation in Hjb as [bag1 Hp]. destruct (bag_remove (length a) t bag bag1 j I ltac:(destruct Hj; lia) Hp) as (t1 & E1 & I1).
      exists t1, bag1. split; [exact E1|]. split; [exact I1|]. rewrite Hp in N. apply NoDup_cons in N as [Nj N1]. split; [exact N1|]. intros j'. split.
      + intros H. assert (j' ∈ bag) as Hb by (rewrite Hp; right; exact H). apply B in Hb as (y & Hy). exists y. split; [|exact Hy]. intros ->. apply Nj. rewrite (last_uniq _ _ _ _ _ Hj Hy). exact H.
      + intros (y & Hyx & Hy). assert (j' ∈ bag) as Hb by (apply B; eauto). rewrite Hp in Hb. apply elem_of_cons in Hb as [->|H]; [|exact H]. destruct Hj as (_ & Hj & _), Hy as (_ & Hy & _). congruence.
    - exists t, bag. split; [reflexivity|]. split; [exact I|]. split; [exact N|]. intros j. rewrite B. split; [|intros (y & _ & H); eauto]. intros (y & H). exists y. split; [|exact H]. intros ->. apply Dx in H. discriminate. }
  destruct (bag_add (length a) t1 bag1 i I1 Hi) as (t2 & E2 & I2). pose proof (last_step a i x Hx) as LS.
  assert (B2 : forall j, j ∈ i :: bag1 <-> exists y, last_at a (S i) y j).
  { intros j. rewrite elem_of_cons, B1. split; [intros [->|(y & H)]; [exists x|exists y]; apply LS; tauto|]. intros (y & [[_ H]|H]%LS); [left; exact H|right; eauto]. }
  assert (N2 : NoDup (i :: bag1)) by (apply NoDup_cons; split; [|exact N1]; intros (y & _ & (H & _))%B1; lia).
  assert (F2 : Forall (fun j => j < i + 1) (i :: bag1)) by (apply Forall_forall; intros j (y & (H & _))%B2; lia).
  exists t2, (<[x:=Some i]> last), (map (fun l => Z.of_nat (length (i :: bag1) - below l (i :: bag1))) ls). split; [|split].
  - unfold distinct_turn. rewrite (vget_ok _ _ _ Hx). cbn [mbind res_bind]. rewrite (vget_ok _ _ _ Ho). cbn [mbind res_bind]. rewrite E1. cbn [mbind res_bind]. rewrite E2. cbn [mbind res_bind]. rewrite vset_ok by lia. cbn [mbind res_bind]. rewrite (vget_ok _ _ _ Hq). cbn [mbind res_bind].
    rewrite (answers (length a) t2 (i :: bag1) (i + 1) ls I2 F2 ltac:(lia) Hls). reflexivity.
  - split; [exists (i :: bag1); auto|rewrite insert_length; exact L|]. intros y o' Hy j. rewrite LS. destruct (decide (y = x)) as [->|Hyx].
    + rewrite list_lookup_insert in Hy by lia. injection Hy as <-. split; [intros [= <-]; left; auto|intros [[_ ->]|[H _]]; [reflexivity|contradiction]].
    + rewrite list_lookup_insert_ne in Hy by congruence. rewrite (D y o' Hy j). tauto.
  - clear Hq Hls. induction ls as [|l ls IH]; cbn [map]; constructor; [|exact IH]. eexists. split; [reflexivity|]. apply section_count; [exact N2|exact B2|lia].
Qed.
Lemma sweep_ok m a qs : Forall (fun x => x < m) a -> length qs = length a -> Forall (Forall (fun l => l <= length a)) qs ->
  exists out, distinct_sweep m a qs = Ok out /\ length out = length a /\ forall i ls r, qs !! i = Some ls -> out !! i = Some r -> Forall2 (fun l z => exists k, z = Z.of_nat k /\ distinct (drop l (take (S i) a)) k) ls r.
Proof.
  intros Ha Hq Hl. unfold distinct_sweep.
  destruct (rfor_range_inv (fun i s => dinv m a i s.1.1 s.1.2 /\ length s.2 = i /\ forall j ls r, qs !! j = Some ls -> s.2 !! j = Some r -> Forall2 (fun l z => exists k, z = Z.of_nat k /\ distinct (drop l (take (S j) a)) k) ls r) 0 (length a)
    (distinct_turn a qs) (fw_new 0%Z (length a), replicate m None, [])) as ([[t last] out] & E & _ & L & H).
  - lia.
  - cbn [fst snd]. split; [|split; [reflexivity|intros j ls r _ Hj; discriminate]]. split.
    + exists []. split; [rewrite tally_nil; apply fw_new_inv; exact zsum_laws|]. split; [constructor|]. intros j. rewrite elem_of_nil. split; [tauto|intros (x & H & _); lia].
    + apply replicate_length.
    + intros x o [-> _]%lookup_replicate j. split; [discriminate|intros (H & _); lia].
  - intros i [[t last] out] Hi (D & L & H). cbn [fst snd] in *. destruct (lookup_lt_is_Some_2 qs i ltac:(lia)) as [ls Hls].
    destruct (turn_ok m a qs i t last out ls D Ha ltac:(lia) Hls ltac:(rewrite Forall_lookup in Hl; exact (Hl i ls Hls))) as (t' & last' & r & E & D' & R). eexists. split; [exact E|]. cbn [fst snd]. split; [rewrite Nat.add_1_r; exact D'|].
    split; [rewrite app_length; cbn; lia|]. intros j ls' r' Hj Hr. apply lookup_app_Some in Hr as [Hr|[Hge Hr]]; [exact (H j ls' r' Hj Hr)|].
    apply list_lookup_singleton_Some in Hr as [Hj0 <-]. assert (j = i) as -> by lia. rewrite Hls in Hj. injection Hj as <-. exact R.
  - cbn [fst snd] in *. exists out. unfold range. rewrite E. split; [reflexivity|]. split; [exact L|exact H].
Qed.
