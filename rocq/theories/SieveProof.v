From Coq Require Import Znumtheory.
From Verif Require Import Prelude IntModel IMathModel IMathSpec ModIntModel ModIntProof FactorialModel FactorialSpec FactorialProof ModIntProps NumAgreeProof CountSpec CountProof SieveModel SieveSpec.
Open Scope Z_scope.

(** Sums and numbers of elements. *)
Fixpoint zs {A} (f : A -> Z) (l : list A) : Z := match l with [] => 0 | x :: l => f x + zs f l end.
Lemma zs_app {A} (f : A -> Z) l l' : zs f (l ++ l') = zs f l + zs f l'.
Proof. induction l as [|x l IH]; cbn [zs app]; lia. Qed.
Lemma zs_map {A B} (h : A -> B) (f : B -> Z) l : zs f (map h l) = zs (fun x => f (h x)) l.
Proof. induction l as [|x l IH]; cbn [zs map]; [reflexivity|rewrite IH; reflexivity]. Qed.
Lemma zs_ext {A} (f g : A -> Z) l : (forall x, x ∈ l -> f x = g x) -> zs f l = zs g l.
Proof. induction l as [|x l IH]; intros H; cbn [zs]; [reflexivity|]. rewrite (H x) by left. rewrite IH; [reflexivity|]. intros y Hy. apply H. right. exact Hy. Qed.
Lemma zs_add {A} (f g : A -> Z) l : zs (fun x => f x + g x) l = zs f l + zs g l.
Proof. induction l as [|x l IH]; cbn [zs]; lia. Qed.
Lemma zs_opp {A} (f : A -> Z) l : zs (fun x => - f x) l = - zs f l.
Proof. induction l as [|x l IH]; cbn [zs]; lia. Qed.
Lemma zs_flat {A B} (h : A -> list B) (f : B -> Z) l : zs f (flat_map h l) = zs (fun x => zs f (h x)) l.
Proof. induction l as [|x l IH]; cbn [zs flat_map]; [reflexivity|]. rewrite zs_app, IH. reflexivity. Qed.
Lemma zs_scale {A} (f : A -> Z) k l : zs (fun x => f x * k) l = zs f l * k.
Proof. induction l as [|x l IH]; cbn [zs]; lia. Qed.
Lemma zs_shift (f : nat -> Z) m : forall a, zs f (seq (S a) m) = zs (fun j => f (S j)) (seq a m).
Proof. induction m as [|m IH]; intros a; cbn [seq zs]; [reflexivity|]. rewrite IH. reflexivity. Qed.
Lemma zs_snoc (f : nat -> Z) m a : zs f (seq a (S m)) = zs f (seq a m) + f (a + m)%nat.
Proof. rewrite seq_S, zs_app. cbn [zs]. lia. Qed.
Definition one (b : bool) : Z := if b then 1 else 0.
Definition cnt {A} (g : A -> bool) (l : list A) : Z := zs (fun x => one (g x)) l.
Lemma cnt_ext {A} (g h : A -> bool) l : (forall x, x ∈ l -> g x = h x) -> cnt g l = cnt h l.
Proof. intros H. apply zs_ext. intros x Hx. rewrite (H x Hx). reflexivity. Qed.
Lemma cnt_length {A} (P : A -> Prop) `{forall x, Decision (P x)} (g : A -> bool) l : (forall x, x ∈ l -> g x = true <-> P x) -> cnt g l = Z.of_nat (length (filter P l)).
Proof.
  unfold cnt. induction l as [|x l IH]; intros HP; [reflexivity|]. cbn [zs]. rewrite IH by (intros y Hy; apply HP; right; exact Hy). pose proof (HP x ltac:(left)) as E. destruct (decide (P x)) as [Px|Nx].
  - rewrite filter_cons_True by exact Px. rewrite (proj2 E Px). cbn [one length]. lia.
  - rewrite filter_cons_False by exact Nx. destruct (g x); [tauto|]. cbn [one]. lia.
Qed.

(** Inclusion and exclusion. *)
Fixpoint sub {A} (l : list A) : list (list A) := match l with [] => [[]] | x :: l => sub l ++ map (cons x) (sub l) end.
Definition sgn (j : nat) : Z := if Nat.even j then 1 else -1.
Lemma sgn_S j : sgn (S j) = - sgn j.
Proof. unfold sgn. rewrite Nat.even_succ, <- Nat.negb_even. destruct (Nat.even j); reflexivity. Qed.
Lemma sieve {X I} (b : I -> X -> bool) (l : list X) : forall (L : list I) (h : X -> bool),
  cnt (fun x => h x && forallb (fun i => negb (b i x)) L) l = zs (fun S => sgn (length S) * cnt (fun x => h x && forallb (fun i => b i x) S) l) (sub L).
Proof.
  induction L as [|i L IH]; intros h; cbn [sub].
  - cbn [zs length]. change (sgn 0) with 1. rewrite Z.add_0_r, Z.mul_1_l. reflexivity.
  - rewrite zs_app, zs_map, <- IH. erewrite (zs_ext (fun S => sgn (length (i :: S)) * _)); [|intros S _; cbn [length]; rewrite sgn_S, Z.mul_opp_l; erewrite cnt_ext; [reflexivity|intros x _; cbn [forallb]; rewrite andb_assoc; reflexivity]].
    rewrite zs_opp. rewrite <- (IH (fun x => h x && b i x)). unfold cnt. rewrite <- zs_opp, <- zs_add. apply zs_ext. intros x _. cbn [forallb]. destruct (h x), (b i x), (forallb _ L); reflexivity.
Qed.
Lemma pascal n (g : nat -> Z) : zs (fun j => Z.of_nat (binom (S n) j) * g j) (seq 0 (S (S n))) = zs (fun j => Z.of_nat (binom n j) * g j) (seq 0 (S n)) + zs (fun j => Z.of_nat (binom n j) * g (S j)) (seq 0 (S n)).
Proof.
  change (seq 0 (S (S n))) with (0%nat :: seq 1 (S n)). cbn [zs]. rewrite zs_shift. erewrite (zs_ext (fun j => Z.of_nat (binom (S n) (S j)) * g (S j))); [|intros j _; cbn [binom]; rewrite Nat2Z.inj_add, Z.mul_add_distr_r; reflexivity]. rewrite zs_add.
  assert (E : zs (fun j => Z.of_nat (binom n j) * g j) (seq 0 (S (S n))) = zs (fun j => Z.of_nat (binom n j) * g j) (seq 0 (S n))) by (rewrite zs_snoc, (binom_gt n) by lia; lia).
  rewrite <- E. change (seq 0 (S (S n))) with (0%nat :: seq 1 (S n)). cbn [zs]. rewrite zs_shift, !binom_n0. lia.
Qed.
Lemma sub_sizes {A} (L : list A) : forall g, zs (fun S => g (length S)) (sub L) = zs (fun j => Z.of_nat (binom (length L) j) * g j) (seq 0 (S (length L))).
Proof.
  induction L as [|x L IH]; intros g; [cbn [sub zs length seq binom]; lia|]. cbn [sub length]. rewrite zs_app, zs_map, pascal, IH. f_equal. apply (IH (fun j => g (S j))).
Qed.
Lemma sieve_sizes {X I} (b : I -> X -> bool) (l : list X) (L : list I) (F : nat -> Z) : (forall S, S ∈ sub L -> cnt (fun x => forallb (fun i => b i x) S) l = F (length S)) ->
  cnt (fun x => forallb (fun i => negb (b i x)) L) l = zs (fun j => sgn j * (Z.of_nat (binom (length L) j) * F j)) (seq 0 (S (length L))).
Proof.
  intros H. pose proof (sieve b l L (fun _ => true)) as E. cbn [andb] in E. rewrite E. erewrite zs_ext; [|intros S HS; rewrite (H S HS); reflexivity]. rewrite (sub_sizes L (fun j => sgn j * F j)). apply zs_ext. intros j _. lia.
Qed.
Lemma sub_spec {A} (L : list A) : forall S, S ∈ sub L -> NoDup L -> NoDup S /\ (forall x, x ∈ S -> x ∈ L) /\ (length S <= length L)%nat.
Proof.
  induction L as [|x L IH]; intros S HS N; cbn [sub] in HS.
  - apply elem_of_list_singleton in HS as ->. split; [constructor|]. split; [auto|reflexivity].
  - apply NoDup_cons in N as [Nx N]. apply elem_of_app in HS as [HS|HS].
    + destruct (IH S HS N) as (A1 & A2 & A3). split; [exact A1|]. split; [intros y Hy; right; auto|cbn; lia].
    + apply elem_of_list_fmap in HS as (S' & -> & HS). destruct (IH S' HS N) as (A1 & A2 & A3). split; [constructor; [intros H; apply Nx, A2, H|exact A1]|]. split; [|cbn; lia].
      intros y Hy. apply elem_of_cons in Hy as [->|Hy]; [left|right; auto].
Qed.
Lemma part (S L : list nat) : NoDup S -> NoDup L -> (forall x, x ∈ S -> x ∈ L) -> filter (fun x => x ∈ S) L ++ filter (fun x => x ∉ S) L ≡ₚ L /\ length (filter (fun x => x ∉ S) L) = (length L - length S)%nat.
Proof.
  intros NS NL HS. assert (P : filter (fun x => x ∈ S) L ++ filter (fun x => x ∉ S) L ≡ₚ L).
  { apply NoDup_Permutation; [|exact NL|].
    - apply NoDup_app. split; [apply NoDup_filter, NL|]. split; [|apply NoDup_filter, NL]. intros x H1 H2. apply elem_of_list_filter in H1 as [H1 _]. apply elem_of_list_filter in H2 as [H2 _]. contradiction.
    - intros x. rewrite elem_of_app, !elem_of_list_filter. destruct (decide (x ∈ S)); tauto. }
  split; [exact P|]. assert (Q : filter (fun x => x ∈ S) L ≡ₚ S) by (apply NoDup_Permutation; [apply NoDup_filter, NL|exact NS|]; intros x; rewrite elem_of_list_filter; split; [tauto|auto]).
  apply Permutation_length in P, Q. rewrite app_length in P. lia.
Qed.
Lemma counts_unique {X} (P : X -> Prop) a b : counts P a -> counts P b -> a = b.
Proof. intros (L & N & H & <-) (L' & N' & H' & <-). apply Permutation_length, NoDup_Permutation; [exact N|exact N'|]. intros x. rewrite H, H'. reflexivity. Qed.

(** Words. *)
Fixpoint words (A : list nat) (n : nat) : list (list nat) := match n with O => [[]] | S n => flat_map (fun a => map (cons a) (words A n)) A end.
Lemma words_spec A n : forall w, w ∈ words A n <-> length w = n /\ Forall (fun x => x ∈ A) w.
Proof.
  induction n as [|n IH]; intros w; cbn [words].
  - rewrite elem_of_list_singleton. split; [intros ->; split; [reflexivity|constructor]|intros [H _]; apply length_zero_iff_nil; exact H].
  - rewrite elem_of_list_In, in_flat_map. split.
    + intros (a & Ha & H). apply elem_of_list_In in Ha. apply in_map_iff in H as (w' & <- & H). apply elem_of_list_In, IH in H as [H1 H2]. split; [cbn; lia|constructor; assumption].
    + intros [H1 H2]. destruct w as [|a w]; [discriminate|]. inversion H2; subst. exists a. split; [apply elem_of_list_In; assumption|]. apply in_map, elem_of_list_In, IH. split; [cbn in H1; lia|assumption].
Qed.
Lemma words_nodup A n : NoDup A -> NoDup (words A n).
Proof.
  intros NA. induction n as [|n IH]; cbn [words]; [apply NoDup_singleton|]. induction NA as [|a A' Ha NA IHA]; [constructor|]. revert IH. generalize (words (a :: A') n) as W. intros W NW. clear IHA.
  assert (K : forall B, NoDup B -> NoDup (flat_map (fun a => map (cons a) W) B)).
  { induction 1 as [|b B Hb NB IHB]; cbn [flat_map]; [constructor|]. apply NoDup_app. split; [apply NoDup_fmap_2; [intros ? ? ?; congruence|exact NW]|]. split; [|exact IHB].
    intros w H1 H2. apply elem_of_list_fmap in H1 as (w' & -> & _). apply elem_of_list_In, in_flat_map in H2 as (b' & Hb' & H2). apply in_map_iff in H2 as (w2 & E & _). injection E as -> _. apply elem_of_list_In in Hb'. contradiction. }
  apply K. constructor; assumption.
Qed.
Lemma avoid_cons (S : list nat) a w : forallb (fun i => negb (bool_decide (i ∈ a :: w))) S = negb (bool_decide (a ∈ S)) && forallb (fun i => negb (bool_decide (i ∈ w))) S.
Proof.
  induction S as [|s S IH]; [cbn [forallb]; rewrite bool_decide_false by apply not_elem_of_nil; reflexivity|]. cbn [forallb]. rewrite IH. destruct (decide (s = a)) as [->|Ne].
  - rewrite (bool_decide_true (a ∈ a :: w)), (bool_decide_true (a ∈ a :: S)) by left. reflexivity.
  - rewrite (bool_decide_ext (s ∈ a :: w) (s ∈ w)) by (rewrite elem_of_cons; intuition congruence). rewrite (bool_decide_ext (a ∈ s :: S) (a ∈ S)) by (rewrite elem_of_cons; intuition congruence).
    destruct (bool_decide (s ∈ w)), (bool_decide (a ∈ S)); reflexivity.
Qed.
Lemma avoid_cnt (S A : list nat) n : cnt (fun w => forallb (fun i => negb (bool_decide (i ∈ w))) S) (words A n) = cnt (fun a => negb (bool_decide (a ∈ S))) A ^ Z.of_nat n.
Proof.
  induction n as [|n IH].
  - cbn [words]. unfold cnt at 1. cbn [zs]. replace (forallb _ S) with true; [reflexivity|]. symmetry. apply forallb_forall. intros s _. rewrite bool_decide_false by apply not_elem_of_nil. reflexivity.
  - rewrite Nat2Z.inj_succ, Z.pow_succ_r, <- IH by lia. cbn [words]. unfold cnt at 1. rewrite zs_flat. unfold cnt at 1. rewrite <- zs_scale. apply zs_ext. intros a _. rewrite zs_map. unfold cnt.
    destruct (bool_decide (a ∈ S)) eqn:E; cbn [negb one].
    + rewrite (zs_ext _ (fun _ => 0 * 0)); [rewrite zs_scale; lia|]. intros w _. rewrite avoid_cons, E. reflexivity.
    + rewrite Z.mul_1_l. apply zs_ext. intros w _. rewrite avoid_cons, E. reflexivity.
Qed.
Lemma onto_count n k : exists K, counts (onto n k) K /\ Z.of_nat K = zs (fun j => sgn j * (Z.of_nat (binom k j) * Z.of_nat (k - j) ^ Z.of_nat n)) (seq 0 (S k)).
Proof.
  set (W := words (seq 0 k) n). assert (Mem : forall w, w ∈ W <-> length w = n /\ Forall (fun x => x < k)%nat w).
  { intros w. unfold W. rewrite words_spec. rewrite !Forall_forall. split; intros [H1 H2]; (split; [exact H1|]); intros x Hx; specialize (H2 x Hx); rewrite elem_of_seq in *; lia. }
  assert (E := sieve_sizes (fun i w => negb (bool_decide (i ∈ w))) W (seq 0 k) (fun j => Z.of_nat (k - j) ^ Z.of_nat n)). rewrite seq_length in E.
  exists (length (filter (fun w => Forall (fun i => i ∈ w) (seq 0 k)) W)). split.
  - exists (filter (fun w => Forall (fun i => i ∈ w) (seq 0 k)) W). split; [apply NoDup_filter, words_nodup, NoDup_seq|]. split; [|reflexivity]. intros w. rewrite elem_of_list_filter, Mem, Forall_forall. unfold onto. split.
    + intros (H & H1 & H2). split; [exact H1|]. split; [exact H2|]. intros i Hi. apply H, elem_of_seq. lia.
    + intros (H1 & H2 & H3). split; [|auto]. intros i Hi. apply H3. apply elem_of_seq in Hi. lia.
  - rewrite <- E.
    + symmetry. apply cnt_length. intros w _. rewrite forallb_forall, Forall_forall. split; intros H i Hi; [apply elem_of_list_In, H in Hi|apply elem_of_list_In, H in Hi]; destruct (bool_decide_reflect (i ∈ w)); try assumption; try discriminate; try contradiction; reflexivity.
    + intros S HS. destruct (sub_spec _ S HS (NoDup_seq 0 k)) as (NS & HS' & _). unfold W. rewrite avoid_cnt. f_equal. destruct (part S (seq 0 k) NS (NoDup_seq 0 k) HS') as [_ EL]. rewrite seq_length in EL. rewrite <- EL. apply cnt_length. intros x _. destruct (bool_decide_reflect (x ∈ S)); split; try discriminate; tauto.
Qed.
Close Scope Z_scope.

(** Permutations. *)
Lemma perms_count m : forall A : list nat, NoDup A -> length A = m -> counts (fun w => w ≡ₚ A) (fact m).
Proof.
  induction m as [|m IH]; intros A NA L.
  - apply length_zero_iff_nil in L as ->. apply (counts_1 _ []). intros w. split; [intros H; apply Permutation_nil; symmetry; exact H|intros ->; reflexivity].
  - rewrite fact_S, <- L. apply (counts_mul (fun a w => a :: w) (fun a => a ∈ A) (fun a w => a :: w ≡ₚ A)).
    + exists A. split; [exact NA|]. split; [reflexivity|reflexivity].
    + intros a Ha. apply elem_of_Permutation in Ha as [A' HA]. assert (NA' : NoDup (a :: A')) by (rewrite <- HA; exact NA). apply NoDup_cons in NA' as [_ NA']. eapply counts_ext; [|apply (IH A' NA')].
      * intros w. cbn beta. rewrite HA. split; [intros ->; reflexivity|apply Permutation_cons_inv].
      * apply Permutation_length in HA. cbn in HA. lia.
    + intros x y x' y' _ _ _ _ E. split; congruence.
    + intros w. split; [|intros (a & w' & _ & H & ->); exact H]. intros H. destruct w as [|a w]; [apply Permutation_length in H; cbn in H; lia|]. exists a, w. split; [rewrite <- H; left|]. split; [exact H|reflexivity].
Qed.
Section Fill.
  Context (S : list nat).
  Fixpoint fill (l w : list nat) : list nat :=
    match l with
    | [] => []
    | i :: l => if decide (i ∈ S) then i :: fill l w else match w with [] => [] | y :: w => y :: fill l w end
    end.
  Fixpoint unfill (l x : list nat) : list nat :=
    match l, x with
    | i :: l, y :: x => if decide (i ∈ S) then unfill l x else y :: unfill l x
    | _, _ => []
    end.
  Definition fixes : list nat -> list nat -> Prop := Forall2 (fun i y => i ∈ S -> y = i).
  Lemma unfill_perm l x : fixes l x -> x ≡ₚ filter (fun i => i ∈ S) l ++ unfill l x.
  Proof.
    induction 1 as [|i y l x H _ IH]; [reflexivity|]. cbn [unfill]. case_decide as D; [rewrite filter_cons_True by exact D; rewrite (H D); cbn [app]; rewrite <- IH; reflexivity|].
    rewrite filter_cons_False by exact D. rewrite <- Permutation_middle, <- IH. reflexivity.
  Qed.
  Lemma fill_unfill l x : fixes l x -> fill l (unfill l x) = x.
  Proof. induction 1 as [|i y l x H _ IH]; [reflexivity|]. cbn [unfill fill]. case_decide as D; cbn [fill]; [rewrite (H D), IH; reflexivity|]. rewrite IH. reflexivity. Qed.
  Lemma unfill_fill l : forall w, length w = length (filter (fun i => i ∉ S) l) -> unfill l (fill l w) = w /\ fixes l (fill l w).
  Proof.
    induction l as [|i l IH]; intros w L; cbn [fill].
    - apply length_zero_iff_nil in L as ->. split; [reflexivity|constructor].
    - case_decide as D.
      + rewrite filter_cons_False in L by tauto. destruct (IH w L) as [E F]. split; [cbn [unfill]; rewrite decide_True by exact D; exact E|constructor; [reflexivity|exact F]].
      + rewrite filter_cons_True in L by exact D. destruct w as [|y w]; [discriminate|]. cbn in L. destruct (IH w ltac:(lia)) as [E F]. split; [cbn [unfill]; rewrite decide_False by exact D; rewrite E; reflexivity|constructor; [tauto|exact F]].
  Qed.
  Lemma fixes_count l : NoDup S -> NoDup l -> (forall x, x ∈ S -> x ∈ l) -> counts (fun x => x ≡ₚ l /\ fixes l x) (fact (length l - length S)).
  Proof.
    intros NS NL HS. destruct (part S l NS NL HS) as [P EL]. destruct (perms_count _ (filter (fun x => x ∉ S) l) (NoDup_filter _ _ NL) EL) as (W & NW & HW & LW). rewrite <- LW. exists (fill l <$> W).
    assert (Len : forall w, w ∈ W -> length w = length (filter (fun i => i ∉ S) l)) by (intros w Hw; apply Permutation_length, HW, Hw).
    split; [|split; [|apply fmap_length]].
    - apply NoDup_fmap_2_strong; [|exact NW]. intros w w' Hw Hw' E. destruct (unfill_fill l w (Len w Hw)) as [E1 _]. destruct (unfill_fill l w' (Len w' Hw')) as [E2 _]. congruence.
    - intros x. rewrite elem_of_list_fmap. split.
      + intros (w & -> & Hw). destruct (unfill_fill l w (Len w Hw)) as [E F]. split; [|exact F]. rewrite (unfill_perm l _ F), E. rewrite (proj1 (HW w) Hw). exact P.
      + intros [Px F]. exists (unfill l x). split; [symmetry; apply fill_unfill, F|]. apply HW. apply (Permutation_app_inv_l (filter (fun i => i ∈ S) l)). rewrite <- (unfill_perm l x F), Px. symmetry. exact P.
  Qed.
End Fill.
Lemma arrangement_perm n t : arrangement n n t <-> t ≡ₚ seq 0 n.
Proof.
  split.
  - intros (L & N & F). apply submseteq_Permutation_length_eq; [rewrite seq_length, L; reflexivity|]. apply NoDup_submseteq; [exact N|]. intros x Hx. rewrite Forall_forall in F. apply elem_of_seq. specialize (F x Hx). lia.
  - intros P. split; [rewrite P; apply seq_length|]. split; [rewrite P; apply NoDup_seq|]. apply Forall_forall. intros x Hx. rewrite P in Hx. apply elem_of_seq in Hx. lia.
Qed.
Lemma fixes_seq S n x : length x = n -> (forall s, s ∈ S -> s < n) -> fixes S (seq 0 n) x <-> forall s, s ∈ S -> x !! s = Some s.
Proof.
  intros L B. unfold fixes. rewrite Forall2_same_length_lookup, seq_length. split.
  - intros [_ H] s Hs. specialize (B s Hs). destruct (lookup_lt_is_Some_2 x s) as [y Hy]; [lia|]. rewrite Hy. f_equal. apply (H s s y); [apply lookup_seq; lia|exact Hy|exact Hs].
  - intros H. split; [lia|]. intros s i y Hi Hy Hs. apply lookup_seq in Hi as [-> _]. cbn in *. rewrite (H s Hs) in Hy. congruence.
Qed.
Lemma deranged_count n : exists K, counts (deranged n) K /\ Z.of_nat K = zs (fun j => sgn j * (Z.of_nat (binom n j) * Z.of_nat (fact (n - j))))%Z (seq 0 (S n)).
Proof.
  destruct (perms_count n (seq 0 n) (NoDup_seq 0 n) (seq_length n 0)) as (W & NW & HW & LW).
  assert (Len : forall x, x ∈ W -> length x = n) by (intros x Hx; apply HW in Hx; rewrite Hx; apply seq_length).
  assert (E := sieve_sizes (fun i (x : list nat) => bool_decide (x !! i = Some i)) W (seq 0 n) (fun j => Z.of_nat (fact (n - j)))). rewrite seq_length in E.
  exists (length (filter (fun x => Forall (fun i => x !! i <> Some i) (seq 0 n)) W)). split.
  - exists (filter (fun x => Forall (fun i => x !! i <> Some i) (seq 0 n)) W). split; [apply NoDup_filter, NW|]. split; [|reflexivity]. intros x. rewrite elem_of_list_filter. unfold deranged. rewrite arrangement_perm, HW, Forall_forall. split.
    + intros [H P]. split; [exact P|]. intros i Hi. apply (H i); [|exact Hi]. apply lookup_lt_Some in Hi. rewrite P, seq_length in Hi. apply elem_of_seq. lia.
    + intros [P H]. split; [|exact P]. intros i _. apply H.
  - rewrite <- E.
    + symmetry. apply cnt_length. intros x _. rewrite forallb_forall, Forall_forall. split; intros H i Hi; apply elem_of_list_In, H in Hi; destruct (bool_decide_reflect (x !! i = Some i)); try assumption; try discriminate; try contradiction; reflexivity.
    + intros S HS. destruct (sub_spec _ S HS (NoDup_seq 0 n)) as (NS & HS' & _). assert (B : forall s, s ∈ S -> s < n) by (intros s Hs; apply HS', elem_of_seq in Hs; lia).
      rewrite (cnt_length (fun x => Forall (fun i => x !! i = Some i) S)).
      * f_equal. pose proof (fixes_count S (seq 0 n) NS (NoDup_seq 0 n) HS') as FC. rewrite seq_length in FC. eapply counts_unique; [|exact FC]. exists (filter (fun x => Forall (fun i => x !! i = Some i) S) W). split; [apply NoDup_filter, NW|]. split; [|reflexivity].
        intros x. rewrite elem_of_list_filter, HW, Forall_forall. split.
        -- intros [H1 H2]. split; [exact H2|]. apply fixes_seq; [rewrite H2; apply seq_length|exact B|exact H1].
        -- intros [H1 H2]. split; [|exact H1]. apply (fixes_seq S n x); [rewrite H1; apply seq_length|exact B|exact H2].
      * intros x _. rewrite forallb_forall, Forall_forall. split; intros H i Hi; apply elem_of_list_In, H in Hi; [apply bool_decide_eq_true in Hi; exact Hi|apply bool_decide_eq_true; exact Hi].
Qed.
Lemma falling_binom n j : j <= n -> falling n (n - j) = binom n j * fact (n - j).
Proof.
  intros H. pose proof (falling_fact n (n - j) ltac:(lia)) as A. pose proof (binom_fact n j H) as B. replace (n - (n - j)) with j in A by lia. apply (Nat.mul_cancel_r _ _ (fact j)); [apply fact_neq_0|]. lia.
Qed.

Open Scope Z_scope.
Section Run.
  Context (p : Z) (hint : bool) (N : nat) (f : factorial) (Hp : prime p) (Hp31 : p <= 2 ^ 31) (HN : Z.of_nat N < p).
  Notation c := (static_ctx p hint).
  Context (Ch : forall n k, (k <= n <= N)%nat -> choose c f n k = Ok (Z.of_nat (binom n k) mod p)) (Out : forall n k, (n < k)%nat \/ (N < n)%nat -> choose c f n k = Panic).
  Context (Pm : forall n k, (k <= n <= N)%nat -> perm c f n k = Ok (Z.of_nat (falling n k) mod p)) (POut : forall n k, (n < k)%nat \/ (N < n)%nat -> perm c f n k = Panic).
  Let P2 : 2 <= p := prime_ge_2 p Hp.
  Lemma zero_ok : mi_new (mc_m c) i32 0 = Ok (0 mod p).
  Proof. change (mc_m c) with p. apply (new_ok i32 0 p i32_prim); [unfold in_ty; cbn; lia|lia]. Qed.
  Lemma alternate_ok j r a : alternate c j (r mod p) (a mod p) = Ok ((r + sgn j * a) mod p).
  Proof.
    unfold alternate, sgn. change (mc_m c) with p. destruct (Nat.even j).
    - rewrite add_ok by (lia || apply Z.mod_pos_bound; lia). rewrite Z.mul_1_l, <- Z.add_mod by lia. reflexivity.
    - rewrite sub_ok by (lia || apply Z.mod_pos_bound; lia). rewrite <- Zminus_mod. replace (r + -1 * a) with (r - a) by lia. reflexivity.
  Qed.
  Lemma alt_loop (body : nat -> Z -> res Z) (g : nat -> Z) l : (forall j r, j ∈ l -> body j (r mod p) = Ok ((r + sgn j * g j) mod p)) -> forall r, rfor l body (r mod p) = Ok ((r + zs (fun j => sgn j * g j) l) mod p).
  Proof.
    induction l as [|j l IH]; intros H r; cbn [rfor zs]; [rewrite Z.add_0_r; reflexivity|]. rewrite H by left. cbn [mbind res_bind]. rewrite IH; [rewrite Z.add_assoc; reflexivity|]. intros i r' Hi. apply H. right. exact Hi.
  Qed.
  Lemma surjections_ok n k : Z.of_nat n < 2 ^ 64 -> ((k <= N)%nat -> exists M, counts (onto n k) M /\ surjections c f n k = Ok (Z.of_nat M mod p)) /\ ((N < k)%nat -> surjections c f n k = Panic).
  Proof.
    intros Hn. unfold surjections. rewrite zero_ok. cbn [mbind res_bind]. unfold range_incl. rewrite Nat.sub_0_r. split; intros H.
    - destruct (onto_count n k) as (M & C & E). exists M. split; [exact C|]. rewrite E. rewrite (alt_loop _ (fun j => Z.of_nat (binom k j) * Z.of_nat (k - j) ^ Z.of_nat n)); [rewrite Z.add_0_l; reflexivity|].
      intros j r Hj. apply elem_of_seq in Hj. rewrite Ch by lia. cbn [mbind res_bind]. change (mc_m c) with p. rewrite (new_ok usize _ p usize_prim) by (try lia; unfold in_ty; cbn; lia). cbn [mbind res_bind].
      destruct (static_ctx_ok p hint) as [_ MO]; [lia|]. rewrite (pow_ok p _ ltac:(lia) MO); [|apply Z.mod_pos_bound; lia|unfold in_ty; cbn; lia|left; lia]. cbn [mbind res_bind].
      rewrite (mul_res p hint) by assumption. cbn [mbind res_bind]. rewrite (Z.mod_small (Z.of_nat (k - j)) p) by lia. apply alternate_ok.
    - cbn [seq rfor]. rewrite Out by lia. reflexivity.
  Qed.
  Lemma derangements_ok n : ((n <= N)%nat -> exists M, counts (deranged n) M /\ derangements c f n = Ok (Z.of_nat M mod p)) /\ ((N < n)%nat -> derangements c f n = Panic).
  Proof.
    unfold derangements. rewrite zero_ok. cbn [mbind res_bind]. unfold range_incl. rewrite Nat.sub_0_r. split; intros H.
    - destruct (deranged_count n) as (M & C & E). exists M. split; [exact C|]. rewrite E. rewrite (alt_loop _ (fun j => Z.of_nat (binom n j) * Z.of_nat (fact (n - j)))); [rewrite Z.add_0_l; reflexivity|].
      intros j r Hj. apply elem_of_seq in Hj. rewrite Pm by lia. cbn [mbind res_bind]. rewrite falling_binom, Nat2Z.inj_mul by lia. apply alternate_ok.
    - cbn [seq rfor]. rewrite POut by lia. reflexivity.
  Qed.
End Run.
Close Scope Z_scope.
