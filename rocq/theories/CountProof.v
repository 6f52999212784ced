From Coq Require Import Znumtheory.
From Verif Require Import Prelude IntModel IMathModel IMathSpec ModIntModel ModIntProof FactorialModel FactorialSpec FactorialProof ModIntProps NumAgreeProof CountModel CountSpec.
Close Scope Z_scope.

Lemma counts_ext {X} (P Q : X -> Prop) k : (forall x, P x <-> Q x) -> counts P k -> counts Q k.
Proof. intros E (L & N & H & Hk). exists L. split; [exact N|]. split; [|exact Hk]. intros x. rewrite H. apply E. Qed.
Lemma counts_0 {X} (P : X -> Prop) : (forall x, ~ P x) -> counts P 0.
Proof. intros H. exists []. split; [constructor|]. split; [|reflexivity]. intros x. rewrite elem_of_nil. split; [tauto|]. intros Hx. exact (H x Hx). Qed.
Lemma counts_1 {X} (P : X -> Prop) x : (forall y, P y <-> y = x) -> counts P 1.
Proof. intros H. exists [x]. split; [apply NoDup_singleton|]. split; [|reflexivity]. intros y. rewrite elem_of_list_singleton, H. reflexivity. Qed.
Lemma counts_or {X} (P Q R : X -> Prop) a b : counts P a -> counts Q b -> (forall x, P x -> ~ Q x) -> (forall x, R x <-> P x \/ Q x) -> counts R (a + b).
Proof.
  intros (L & N & H & <-) (L' & N' & H' & <-) D E. exists (L ++ L'). split; [apply NoDup_app; split; [exact N|]; split; [|exact N']; intros x Hx Hx'; apply (D x); [apply H, Hx|apply H', Hx']|].
  split; [|apply app_length]. intros x. rewrite elem_of_app, H, H', E. reflexivity.
Qed.
Lemma counts_image {X Y} (f : X -> Y) (P : X -> Prop) (R : Y -> Prop) a : (forall x y, f x = f y -> x = y) -> counts P a -> (forall y, R y <-> exists x, P x /\ y = f x) -> counts R a.
Proof.
  intros I (L & N & H & <-) E. exists (f <$> L). split; [apply NoDup_fmap_2; [exact I|exact N]|]. split; [|apply fmap_length].
  intros y. rewrite elem_of_list_fmap, E. split; intros (x & H1 & H2); exists x; [rewrite <- H; auto|rewrite H; auto].
Qed.
(** Every x has b continuations. *)
Lemma counts_mul {X Y Z} (f : X -> Y -> Z) (P : X -> Prop) (Q : X -> Y -> Prop) (R : Z -> Prop) a b : counts P a -> (forall x, P x -> counts (Q x) b) ->
  (forall x y x' y', P x -> P x' -> Q x y -> Q x' y' -> f x y = f x' y' -> x = x' /\ y = y') -> (forall z, R z <-> exists x y, P x /\ Q x y /\ z = f x y) -> counts R (a * b).
Proof.
  intros (L & N & H & <-) HQ I E. assert (K : forall M, NoDup M -> (forall x, x ∈ M -> P x) -> counts (fun z => exists x y, x ∈ M /\ Q x y /\ z = f x y) (length M * b)).
  { induction 1 as [|x M Hx NM IH]; intros HM; [apply counts_0; intros z (x & y & Hx & _); inversion Hx|]. cbn [length Nat.mul].
    assert (Px : P x) by (apply HM; left). eapply (counts_or (fun z => exists y, Q x y /\ z = f x y)).
    - destruct (HQ x Px) as (L' & N' & H' & <-). exists (f x <$> L'). split; [|split; [|apply fmap_length]].
      + apply NoDup_fmap_2_strong; [|exact N']. intros y y' Hy Hy' Ef. apply (I x y x y'); try assumption; apply H'; assumption.
      + intros z. rewrite elem_of_list_fmap. split; intros (y & A & C); exists y; [rewrite <- H'; auto|rewrite H'; auto].
    - apply IH. intros x' Hx'. apply HM. right. exact Hx'.
    - intros z (y & Qy & ->) (x' & y' & Hx' & Qy' & Ef). destruct (I x y x' y') as [-> _]; try assumption; [apply HM; right; exact Hx'|]. contradiction.
    - intros z. split.
      + intros (x' & y & Hx' & Qy & Ez). apply elem_of_cons in Hx' as [->|Hx']; [left; eauto|right; eauto 6].
      + intros [(y & Qy & Ez)|(x' & y & Hx' & Qy & Ez)]; [exists x, y|exists x', y]; rewrite elem_of_cons; auto. }
  eapply counts_ext; [|exact (K L N (fun x Hx => proj1 (H x) Hx))]. intros z. rewrite E. split; intros (x & y & A & C); exists x, y; (split; [apply H; exact A|exact C]).
Qed.

Lemma cons_inj {X} (a : X) (l l' : list X) : a :: l = a :: l' -> l = l'.
Proof. congruence. Qed.
Lemma binom_n0 n : binom n 0 = 1.
Proof. destruct n; reflexivity. Qed.

(** Words. *)
Lemma count_t w : count true (true :: w) = S (count true w).
Proof. reflexivity. Qed.
Lemma count_f w : count true (false :: w) = count true w.
Proof. reflexivity. Qed.
Lemma word_count n : forall k, counts (word n k) (binom n k).
Proof.
  induction n as [|n IH]; intros k.
  - destruct k as [|k]; [apply (counts_1 _ []); intros w; split; [intros [H _]; apply length_zero_iff_nil; exact H|intros ->; split; reflexivity]|].
    apply counts_0. intros w [H1 H2]. apply length_zero_iff_nil in H1 as ->. discriminate.
  - destruct k as [|k].
    + cbn [binom]. rewrite <- (binom_n0 n). apply (counts_image (cons false) (word n 0)); [apply cons_inj|apply IH|]. intros w. split.
      * intros [H1 H2]. destruct w as [|[] w]; cbn in H1, H2; try discriminate. exists w. split; [split; [lia|exact H2]|reflexivity].
      * intros (w' & [H1 H2] & ->). split; cbn; [lia|exact H2].
    + cbn [binom]. apply (counts_or (fun w => exists w', word n k w' /\ w = true :: w') (fun w => exists w', word n (S k) w' /\ w = false :: w')).
      * apply (counts_image (cons true) (word n k)); [apply cons_inj|apply IH|reflexivity].
      * apply (counts_image (cons false) (word n (S k))); [apply cons_inj|apply IH|reflexivity].
      * intros w (w' & _ & ->) (w2 & _ & E). discriminate.
      * intros w. split.
        -- intros [H1 H2]. destruct w as [|[] w]; cbn in H1; rewrite ?count_t, ?count_f in H2; try discriminate; [left|right]; exists w; (split; [split; lia|reflexivity]).
        -- intros [(w' & [H1 H2] & ->)|(w' & [H1 H2] & ->)]; (split; [cbn; lia|]); rewrite ?count_t, ?count_f; lia.
Qed.
(** Arrangements. *)
Lemma arrangement_count n k : k <= n -> counts (arrangement n k) (falling n k).
Proof.
  induction k as [|k IH]; intros Hk.
  - apply (counts_1 _ []). intros t. split; [intros [H _]; apply length_zero_iff_nil; exact H|intros ->; split; [reflexivity|split; constructor]].
  - cbn [falling]. apply (counts_mul (fun t x => t ++ [x]) (arrangement n k) (fun t x => x < n /\ x ∉ t)); [apply IH; lia| | |].
    + intros t (L & N & F). exists (filter (fun x => x ∉ t) (seq 0 n)). split; [apply NoDup_filter, NoDup_seq|]. split; [intros x; rewrite elem_of_list_filter, elem_of_seq; split; intros [? ?]; split; auto; lia|].
      assert (P : t ++ filter (fun x => x ∉ t) (seq 0 n) ≡ₚ seq 0 n).
      { apply NoDup_Permutation; [|apply NoDup_seq|].
        - apply NoDup_app. split; [exact N|]. split; [|apply NoDup_filter, NoDup_seq]. intros x Hx Hx'. apply elem_of_list_filter in Hx' as [H _]. contradiction.
        - intros x. rewrite elem_of_app, elem_of_list_filter. split; [|intros H; destruct (decide (x ∈ t)); auto]. intros [H|[_ H]]; [|exact H]. apply elem_of_seq. rewrite Forall_forall in F. specialize (F x H). lia. }
      apply Permutation_length in P. rewrite app_length, seq_length in P. lia.
    + intros t x t' x' _ _ _ _ E. apply app_inj_tail in E. exact E.
    + intros t. split.
      * intros (L & N & F). destruct t as [|x t _] using rev_ind; [discriminate|]. rewrite app_length in L. cbn in L. apply NoDup_app in N as (N & D & _). apply Forall_app in F as [F Fx]. inversion Fx; subst.
        exists t, x. split; [split; [lia|auto]|]. split; [|reflexivity]. split; [assumption|]. intros Hx. apply (D x Hx). left.
      * intros (t' & x & (L & N & F) & [Hx Hn] & ->). split; [rewrite app_length; cbn; lia|]. split; [|apply Forall_app; split; [exact F|constructor; [exact Hx|constructor]]].
        apply NoDup_app. split; [exact N|]. split; [|apply NoDup_singleton]. intros y Hy Hy'. apply elem_of_list_singleton in Hy' as ->. contradiction.
Qed.
(** Compositions. *)
Lemma composition_count n : forall k, counts (composition (S n) k) (binom (n + k) k).
Proof.
  induction n as [|n IHn]; intros k.
  - replace (binom (0 + k) k) with 1 by (cbn; induction k as [|k IH]; [reflexivity|]; cbn [binom]; rewrite <- IH, (binom_gt k (S k)) by lia; reflexivity).
    apply (counts_1 _ [k]). intros t. split.
    + intros [H1 H2]. destruct t as [|x [|y t]]; cbn in H1, H2; try lia. f_equal. lia.
    + intros ->. split; cbn; lia.
  - induction k as [|k IHk].
    + rewrite binom_n0. apply (counts_1 _ (replicate (S (S n)) 0)). intros t. split.
      * intros [H1 H2]. rewrite <- H1. clear H1. induction t as [|x t IH]; [reflexivity|]. cbn in H2 |- *. assert (x = 0) as -> by lia. f_equal. apply IH. lia.
      * intros ->. split; [apply replicate_length|]. generalize (S (S n)). intros m. induction m as [|m IH]; [reflexivity|]. cbn. exact IH.
    + replace (S n + S k) with (S (S n + k)) by lia. cbn [binom]. replace (S n + k) with (n + S k) at 2 by lia.
      apply (counts_or (fun t => exists t', composition (S (S n)) k t' /\ t = match t' with [] => [] | x :: t' => S x :: t' end) (fun t => exists t', composition (S n) (S k) t' /\ t = 0 :: t')).
      * apply (counts_image (fun t' => match t' with [] => [] | x :: t' => S x :: t' end) (composition (S (S n)) k)); [|exact IHk|reflexivity]. intros [|x t] [|y t']; congruence.
      * apply (counts_image (cons 0) (composition (S n) (S k))); [apply cons_inj|apply IHn|reflexivity].
      * intros t ([|x t'] & [H1 H2] & ->) (t2 & _ & E); discriminate.
      * intros t. split.
        -- intros [H1 H2]. destruct t as [|[|x] t]; cbn in H1, H2; [discriminate|right; exists t; split; [split; lia|reflexivity]|left; exists (x :: t); split; [split; cbn; lia|reflexivity]].
        -- intros [([|x t'] & [H1 H2] & ->)|(t' & [H1 H2] & ->)]; cbn in *; [discriminate| |]; split; cbn; lia.
Qed.
(** Brackets: m letters from height h; j of them open. *)
Definition binomp (m j : nat) : nat := match j with 0 => 0 | S j => binom m j end.
Lemma binom_step m j : binom (S m) j = binomp m j + binom m j.
Proof. destruct j as [|j]; [rewrite !binom_n0; reflexivity|reflexivity]. Qed.
Lemma binomp_step m j : binomp (S m) (S j) = binomp m j + binom m j.
Proof. apply binom_step. Qed.
Lemma brackets_count m : forall h j, m = h + 2 * j -> exists N, counts (fun w => length w = m /\ brackets h w) N /\ N + binomp m j = binom m j.
Proof.
  induction m as [|m IH]; intros h j E.
  - assert (h = 0 /\ j = 0) as [-> ->] by lia. exists 1. split; [|reflexivity]. apply (counts_1 _ []). intros w. split; [intros [H _]; apply length_zero_iff_nil; exact H|intros ->; split; reflexivity].
  - assert (Up : j <> 0 -> exists N, counts (fun w => exists w', (length w' = m /\ brackets (S h) w') /\ w = true :: w') N /\ N + binomp m (j - 1) = binom m (j - 1)).
    { intros Hj. destruct (IH (S h) (j - 1)) as (N & C & EN); [lia|]. exists N. split; [|exact EN]. eapply (counts_image (cons true)); [apply cons_inj|exact C|reflexivity]. }
    assert (Dn : forall h', h = S h' -> exists N, counts (fun w => exists w', (length w' = m /\ brackets h' w') /\ w = false :: w') N /\ N + binomp m j = binom m j).
    { intros h' ->. destruct (IH h' j) as (N & C & EN); [lia|]. exists N. split; [|exact EN]. eapply (counts_image (cons false)); [apply cons_inj|exact C|reflexivity]. }
    assert (NoUp : j = 0 -> forall w, length w = m -> ~ brackets (S h) w).
    { intros -> w Hw B. assert (K : forall w h, brackets h w -> h <= length w) by (clear; induction w as [|[] w IH]; intros h B; cbn in *; [lia|specialize (IH _ B); lia|destruct h as [|h]; [contradiction|specialize (IH _ B); lia]]). specialize (K _ _ B). lia. }
    destruct j as [|j].
    + destruct h as [|h']; [lia|]. destruct (Dn h' eq_refl) as (N & C & EN). exists N. split; [|rewrite binom_n0 in *; cbn in *; lia]. eapply counts_ext; [|exact C]. intros w. split.
      * intros (w' & [H1 H2] & ->). split; [cbn; lia|exact H2].
      * intros [H1 H2]. destruct w as [|[] w]; [discriminate| |]; cbn in H1, H2; [exfalso; apply (NoUp eq_refl w); [lia|exact H2]|]. exists w. split; [split; [lia|exact H2]|reflexivity].
    + destruct Up as (N1 & C1 & E1); [lia|]. cbn [Nat.sub] in E1. rewrite Nat.sub_0_r in E1. rewrite binomp_step, binom_step. cbn [binomp]. destruct h as [|h'].
      * exists N1. split.
        -- eapply counts_ext; [|exact C1]. intros w. split; [intros (w' & [H1 H2] & ->); split; [cbn; lia|exact H2]|]. intros [H1 H2]. destruct w as [|[] w]; [discriminate| |]; cbn in H1, H2; [|contradiction]. exists w. split; [split; [lia|exact H2]|reflexivity].
        -- rewrite (binom_sym m (S j)) by lia. replace (m - S j) with j by lia. lia.
      * destruct (Dn h' eq_refl) as (N2 & C2 & E2). exists (N1 + N2). split.
        -- eapply counts_or; [exact C1|exact C2|intros w (w' & _ & ->) (w2 & _ & E'); discriminate|]. intros w. split.
           ++ intros [H1 H2]. destruct w as [|[] w]; [discriminate| |]; cbn in H1, H2; [left|right]; exists w; (split; [split; [lia|exact H2]|reflexivity]).
           ++ intros [(w' & [H1 H2] & ->)|(w' & [H1 H2] & ->)]; (split; [cbn; lia|exact H2]).
        -- cbn [binomp] in E2. lia.
Qed.
Lemma absorb n j : S j <= n -> binom n j * (n - j) = binom n (S j) * S j.
Proof.
  intros H. pose proof (binom_fact n j ltac:(lia)) as A. pose proof (binom_fact n (S j) H) as B. replace (n - j) with (S (n - S j)) in A |- * by lia. rewrite fact_S in A, B.
  apply (Nat.mul_cancel_r _ _ (fact j * fact (n - S j))); [apply Nat.neq_mul_0; split; apply fact_neq_0|]. rewrite <- A in B. lia || nia.
Qed.
Lemma catalan_count n : exists N, counts (bracketing n) N /\ N * (n + 1) = binom (2 * n) n.
Proof.
  destruct (brackets_count (2 * n) 0 n eq_refl) as (N & C & E). exists N. split; [exact C|]. destruct n as [|j]; [cbn in *; lia|]. cbn [binomp] in E. pose proof (absorb (2 * S j) j ltac:(lia)) as A. replace (2 * S j - j) with (S j + 1) in A by lia. nia.
Qed.

(** Anagrams: the places of the last letter, and the rest. *)
Fixpoint weave (i : nat) (mask : list bool) (w : list nat) : list nat :=
  match mask with
  | [] => []
  | true :: m => i :: weave i m w
  | false :: m => match w with [] => [] | x :: w => x :: weave i m w end
  end.
Lemma count_le w : count true w <= length w.
Proof. induction w as [|[] w IH]; rewrite ?count_t, ?count_f; cbn [length]; [cbn; lia|lia|lia]. Qed.
Lemma count_notin (i : nat) w : count i w = 0 <-> i ∉ w.
Proof.
  induction w as [|y w IH]; cbn [count]; [split; [intros _; apply not_elem_of_nil|reflexivity]|]. rewrite not_elem_of_cons, <- IH. destruct (decide (y = i)) as [->|Ne]; split; [lia|intros [? _]; congruence|intros H; split; [congruence|exact H]|intros [_ H]; exact H].
Qed.
Lemma weave_count i j mask : forall w, length mask = length w + count true mask -> count j (weave i mask w) = count j w + if decide (i = j) then count true mask else 0.
Proof.
  induction mask as [|[] mask IH]; intros w L; rewrite ?count_t, ?count_f in *; cbn [length weave] in *.
  - destruct w; [|cbn in L; lia]. cbn. case_decide; reflexivity.
  - cbn [count]. rewrite IH by lia. case_decide; lia.
  - destruct w as [|x w]; cbn [length] in L; [pose proof (count_le mask); lia|]. cbn [count]. rewrite IH by lia. lia.
Qed.
Lemma weave_mask i mask : forall w, i ∉ w -> length mask = length w + count true mask -> map (fun x => bool_decide (x = i)) (weave i mask w) = mask /\ filter (fun x => x <> i) (weave i mask w) = w.
Proof.
  induction mask as [|[] mask IH]; intros w Hi L; rewrite ?count_t, ?count_f in *; cbn [length weave] in *.
  - destruct w; [|cbn in L; lia]. split; reflexivity.
  - destruct (IH w Hi ltac:(lia)) as [E1 E2]. split; [cbn [map]; rewrite E1, bool_decide_true by reflexivity; reflexivity|]. rewrite filter_cons_False by tauto. exact E2.
  - destruct w as [|x w]; cbn [length] in L; [pose proof (count_le mask); lia|]. apply not_elem_of_cons in Hi as [Hx Hi]. destruct (IH w Hi ltac:(lia)) as [E1 E2]. split; [cbn [map]; rewrite E1, bool_decide_false by congruence; reflexivity|]. rewrite filter_cons_True by congruence. rewrite E2. reflexivity.
Qed.
Lemma unweave (i : nat) z : weave i (map (fun x => bool_decide (x = i)) z) (filter (fun x => x <> i) z) = z.
Proof.
  induction z as [|x z IH]; [reflexivity|]. cbn [map]. destruct (decide (x = i)) as [->|Ne]; [rewrite bool_decide_true, filter_cons_False by tauto|rewrite bool_decide_false, filter_cons_True by assumption]; cbn [weave]; rewrite IH; reflexivity.
Qed.
Lemma mask_count (i : nat) z : count true (map (fun x => bool_decide (x = i)) z) = count i z.
Proof. induction z as [|x z IH]; [reflexivity|]. cbn [map]. destruct (decide (x = i)) as [->|Ne]; [rewrite bool_decide_true, count_t by reflexivity|rewrite bool_decide_false, count_f by assumption]; cbn [count]; [rewrite decide_True by reflexivity|rewrite decide_False by assumption]; lia. Qed.
Lemma rest_count (i j : nat) z : count j (filter (fun x => x <> i) z) = if decide (i = j) then 0 else count j z.
Proof.
  induction z as [|x z IH]; [case_decide; reflexivity|]. destruct (decide (x = i)) as [->|Ne]; [rewrite filter_cons_False by tauto|rewrite filter_cons_True by assumption]; cbn [count]; rewrite IH; repeat case_decide; congruence || lia.
Qed.
Lemma rest_length (i : nat) z : length z = length (filter (fun x => x <> i) z) + count i z.
Proof. induction z as [|x z IH]; [reflexivity|]. destruct (decide (x = i)) as [->|Ne]; [rewrite filter_cons_False by tauto|rewrite filter_cons_True by assumption]; cbn [count length]; [rewrite decide_True by reflexivity|rewrite decide_False by assumption]; lia. Qed.
Lemma rest_anagram ks k z : anagram (ks ++ [k]) z -> anagram ks (filter (fun x => x <> length ks) z) /\ count (length ks) z = k.
Proof.
  intros H. split.
  - intros j. rewrite rest_count. case_decide as E; [subst j; rewrite lookup_ge_None_2 by lia; reflexivity|]. rewrite (H j). destruct (decide (j < length ks)); [rewrite lookup_app_l by assumption; reflexivity|]. rewrite !lookup_ge_None_2 by (rewrite ?app_length; cbn; lia). reflexivity.
  - rewrite (H (length ks)), lookup_app_r, Nat.sub_diag by lia. reflexivity.
Qed.
Lemma anagram_length ks : forall w, anagram ks w -> length w = sum_list ks.
Proof.
  induction ks as [|k ks IH] using rev_ind; intros w H.
  - destruct w as [|x w]; [reflexivity|]. specialize (H x). cbn in H. rewrite decide_True in H by reflexivity. discriminate.
  - apply rest_anagram in H as [H1 H2]. rewrite (rest_length (length ks) w), (IH _ H1), H2, sum_list_with_app. cbn. lia.
Qed.
Lemma anagram_snoc ks k M : counts (anagram ks) M -> counts (anagram (ks ++ [k])) (M * binom (sum_list ks + k) k).
Proof.
  intros C. rewrite Nat.mul_comm. assert (Fit : forall mask w, word (sum_list ks + k) k mask -> anagram ks w -> length mask = length w + count true mask /\ length ks ∉ w).
  { intros mask w [L H] A. rewrite (anagram_length ks w A), L, H. split; [reflexivity|]. apply count_notin. rewrite (A (length ks)), lookup_ge_None_2 by lia. reflexivity. }
  apply (counts_mul (weave (length ks)) (word (sum_list ks + k) k) (fun _ w => anagram ks w)); [apply word_count|intros _ _; exact C| |].
  - intros m w m' w' Hm Hm' Hw Hw' E. destruct (Fit m w Hm Hw) as [F1 F2]. destruct (Fit m' w' Hm' Hw') as [F1' F2']. destruct (weave_mask _ m w F2 F1) as [E1 E2]. destruct (weave_mask _ m' w' F2' F1') as [E1' E2']. rewrite E in E1, E2. split; congruence.
  - intros z. split.
    + intros H. pose proof (anagram_length _ _ H) as L. apply rest_anagram in H as [H1 H2]. exists (map (fun x => bool_decide (x = length ks)) z), (filter (fun x => x <> length ks) z). split; [|split; [exact H1|symmetry; apply unweave]].
      split; [rewrite map_length, (rest_length (length ks) z), (anagram_length _ _ H1), H2; reflexivity|rewrite mask_count; exact H2].
    + intros (m & w & Hm & Hw & ->) j. destruct (Fit m w Hm Hw) as [F1 F2]. rewrite (weave_count _ j m w F1), (Hw j). destruct Hm as [_ Hm]. rewrite Hm. case_decide as E.
      * subst j. rewrite lookup_ge_None_2, lookup_app_r, Nat.sub_diag by lia. reflexivity.
      * destruct (decide (j < length ks)); [rewrite lookup_app_l by assumption; lia|]. rewrite !lookup_ge_None_2 by (rewrite ?app_length; cbn; lia). reflexivity.
Qed.
Lemma anagram_nil : counts (anagram []) 1.
Proof. apply (counts_1 _ []). intros w. split; [intros H; apply (anagram_length []) in H; apply length_zero_iff_nil; exact H|intros -> i; reflexivity]. Qed.

Open Scope Z_scope.
Section Run.
  Context (p : Z) (hint : bool) (N : nat) (f : factorial) (Hp : prime p) (Hp31 : p <= 2 ^ 31) (HN : Z.of_nat N < p).
  Notation c := (static_ctx p hint).
  Context (Ch : forall n k, (k <= n <= N)%nat -> choose c f n k = Ok (Z.of_nat (binom n k) mod p)) (Out : forall n k, (n < k)%nat \/ (N < n)%nat -> choose c f n k = Panic).
  Let P2 : 2 <= p := prime_ge_2 p Hp.
  Lemma mul_res a b : mc_mul c (a mod p) (b mod p) = Ok (a * b mod p).
  Proof. destruct (static_ctx_ok p hint) as [_ [M _]]; [lia|]. rewrite (M (a mod p) (b mod p)) by (apply Z.mod_pos_bound; lia). f_equal. symmetry. apply Z.mul_mod. lia. Qed.
  Lemma multi_loop ks : forall pre M, counts (anagram pre) M -> (sum_list (pre ++ ks) <= N)%nat -> exists M', counts (anagram (pre ++ ks)) M' /\
    rfor ks (fun k x => a ← choose c f (x.1 + k) k; r ← mc_mul c x.2 a; Ok ((x.1 + k)%nat, r)) (sum_list pre, Z.of_nat M mod p) = Ok (sum_list (pre ++ ks), Z.of_nat M' mod p).
  Proof.
    induction ks as [|k ks IH]; intros pre M C L; [exists M; rewrite app_nil_r; split; [exact C|reflexivity]|]. cbn [rfor fst snd]. replace (pre ++ k :: ks) with ((pre ++ [k]) ++ ks) in * by (rewrite <- app_assoc; reflexivity).
    assert (S1 : (sum_list (pre ++ [k]) = sum_list pre + k)%nat) by (rewrite sum_list_with_app; cbn; lia). assert (S2 : (sum_list (pre ++ [k]) <= N)%nat) by (rewrite sum_list_with_app in L; lia).
    rewrite Ch by lia. cbn [mbind res_bind]. rewrite mul_res. cbn [mbind res_bind]. rewrite <- S1, <- Nat2Z.inj_mul, S1. destruct (IH (pre ++ [k]) _ (anagram_snoc pre k M C) L) as (M' & C' & E). exists M'. split; [exact C'|]. rewrite <- E, S1. reflexivity.
  Qed.
  Lemma multi_panic ks : forall s r, (N < s + sum_list ks)%nat -> (s <= N)%nat -> 0 <= r < p ->
    rfor ks (fun k x => a ← choose c f (x.1 + k) k; r ← mc_mul c x.2 a; Ok ((x.1 + k)%nat, r)) (s, r) = Panic.
  Proof.
    induction ks as [|k ks IH]; intros s r L Hs Hr; [cbn in L; lia|]. cbn [rfor fst snd]. cbn in L. destruct (le_lt_dec (s + k) N) as [H|H]; [|rewrite Out by lia; reflexivity].
    rewrite Ch by lia. cbn [mbind res_bind]. rewrite <- (Z.mod_small r p) by lia. rewrite mul_res. cbn [mbind res_bind]. apply IH; [unfold id in *; lia|exact H|apply Z.mod_pos_bound; lia].
  Qed.
  Lemma multinomial_ok ks : ((sum_list ks <= N)%nat -> exists M, counts (anagram ks) M /\ multinomial c f ks = Ok (Z.of_nat M mod p)) /\ ((N < sum_list ks)%nat -> multinomial c f ks = Panic).
  Proof.
    unfold multinomial. change (mc_m c) with p. rewrite (new_ok i32 1 p i32_prim) by (try lia; unfold in_ty; cbn; lia). cbn [mbind res_bind]. split; intros H.
    - destruct (multi_loop ks [] 1%nat anagram_nil H) as (M & C & E). exists M. split; [exact C|]. change (sum_list (@nil nat)) with 0%nat in E. change (Z.of_nat 1) with 1 in E. rewrite E. reflexivity.
    - rewrite multi_panic; [reflexivity|cbn; exact H|lia|apply Z.mod_pos_bound; lia].
  Qed.
  Lemma catalan_ok n : ((2 * n <= N)%nat -> exists M, counts (bracketing n) M /\ catalan c f n = Ok (Z.of_nat M mod p)) /\ ((N < 2 * n)%nat -> catalan c f n = Panic).
  Proof.
    unfold catalan. split; intros H; [|rewrite Out by lia; reflexivity]. rewrite Ch by lia. cbn [mbind res_bind]. change (mc_m c) with p. assert (Hd : 0 < Z.of_nat (n + 1) < p) by lia.
    rewrite (new_ok usize _ p usize_prim) by (try lia; unfold in_ty; cbn; lia). cbn [mbind res_bind]. rewrite (Z.mod_small (Z.of_nat (n + 1))) by lia. destruct (catalan_count n) as (M & C & E). exists M. split; [exact C|].
    destruct (static_inv_any p hint (Z.of_nat (n + 1)) Hp Hp31 ltac:(lia)) as [U _]. destruct U as (y & Ey & By & [q Dy]); [lia|]. unfold mi_div. change (mc_inv c (Z.of_nat (n + 1))) with (static_inv p hint (Z.of_nat (n + 1))). rewrite Ey. cbn [mbind res_bind].
    rewrite <- (Z.mod_small y p) by lia. rewrite mul_res. f_equal. rewrite <- E, Nat2Z.inj_mul. replace (Z.of_nat M * Z.of_nat (n + 1) * y) with (Z.of_nat M + (Z.of_nat M * q) * p) by nia. apply Z_mod_plus_full.
  Qed.
  Lemma stars_ok n k : ((1 <= n)%nat -> (n + k <= N + 1)%nat -> exists M, counts (composition n k) M /\ stars c f n k = Ok (Z.of_nat M mod p)) /\ (n = 0%nat \/ (N + 1 < n + k)%nat -> stars c f n k = Panic).
  Proof.
    unfold stars. split.
    - intros Hn H. destruct n as [|n]; [lia|]. exists (binom (n + k) k). split; [apply composition_count|]. replace (S n + k - 1)%nat with (n + k)%nat by lia. cbn [Nat.leb Nat.add]. cbn [rassert mbind res_bind]. apply Ch. lia.
    - intros H. destruct (Nat.leb_spec 1 (n + k)); [|reflexivity]. cbn [rassert mbind res_bind]. apply Out. lia.
  Qed.
End Run.
Close Scope Z_scope.
