From Verif Require Import Prelude ArraySpec SegtreeModel SegtreeSpec SegtreeProof SegtreeProps SpanModel SpanSpec.
Close Scope Z_scope.

(** Sums. *)
Lemma sumn_ext n f g : (forall i, i < n -> f i = g i) -> sumn n f = sumn n g.
Proof. induction n as [|n IH]; intros H; cbn; [reflexivity|]. rewrite IH, H by (intros; try apply H; lia). reflexivity. Qed.
Lemma sumn_add n f g : sumn n (fun i => f i + g i) = sumn n f + sumn n g.
Proof. induction n as [|n IH]; cbn; lia. Qed.
Lemma sumn_zero n f : (forall i, i < n -> f i = 0) -> sumn n f = 0.
Proof. induction n as [|n IH]; intros H; cbn; [reflexivity|]. rewrite IH, H by (intros; try apply H; lia). reflexivity. Qed.
Lemma sumn_swap n m f : sumn n (fun i => sumn m (f i)) = sumn m (fun j => sumn n (fun i => f i j)).
Proof. induction n as [|n IH]; cbn; [symmetry; apply sumn_zero; reflexivity|]. rewrite IH, <- sumn_add. reflexivity. Qed.
Lemma sumn_mul n c f : sumn n (fun i => c * f i) = c * sumn n f.
Proof. induction n as [|n IH]; cbn; lia. Qed.
Lemma sumn_more n m f : n <= m -> (forall i, n <= i < m -> f i = 0) -> sumn m f = sumn n f.
Proof. intros Hn. induction Hn as [|m Hn IH]; intros H; [reflexivity|]. cbn. rewrite IH, H by (intros; try apply H; lia). lia. Qed.
Definition ind (a b i : nat) : nat := if (a <=? i) && (i <? b) then 1 else 0.
Lemma ind_in a b i : a <= i < b -> ind a b i = 1.
Proof. intros H. unfold ind. rewrite (proj2 (Nat.leb_le a i)), (proj2 (Nat.ltb_lt i b)) by lia. reflexivity. Qed.
Lemma ind_out a b i : ~ a <= i < b -> ind a b i = 0.
Proof. intros H. unfold ind. destruct (Nat.leb_spec a i), (Nat.ltb_spec i b); cbn; lia. Qed.
Lemma sumn_ind n a b : a <= b <= n -> sumn n (ind a b) = b - a.
Proof.
  revert b. induction n as [|n IH]; intros b H; cbn; [lia|]. destruct (decide (b <= n)) as [Hb|Hb].
  - rewrite IH by lia. rewrite ind_out by lia. lia.
  - assert (b = S n) as -> by lia. destruct (decide (a = S n)) as [->|Ha].
    + rewrite ind_out by lia. rewrite sumn_zero; [lia|]. intros i Hi. apply ind_out. lia.
    + rewrite (sumn_ext n _ (ind a n)); [rewrite IH, ind_in by lia; lia|]. intros i Hi. unfold ind. destruct (Nat.leb_spec a i), (Nat.ltb_spec i (S n)), (Nat.ltb_spec i n); cbn; lia.
Qed.
Lemma sumn_one n k f : k < n -> (forall i, i < n -> i <> k -> f i = 0) -> sumn n f = f k.
Proof.
  induction n as [|n IH]; intros Hk H; [lia|]. cbn. destruct (decide (k = n)) as [->|Hn].
  - rewrite sumn_zero; [reflexivity|]. intros i Hi. apply H; lia.
  - rewrite IH; [rewrite (H n) by lia; lia|lia|]. intros i Hi Hne. apply H; lia.
Qed.

(** Greatest values. *)
Lemma max_le l x : max_of l <= x <-> forall i y, l !! i = Some y -> y <= x.
Proof.
  induction l as [|z l IH]; cbn; [split; [intros _ i y H; discriminate|lia]|]. change (foldr Nat.max 0 l) with (max_of l). split.
  - intros H [|i] y Hy; cbn in Hy; [injection Hy as <-; lia|]. apply (proj1 IH ltac:(lia) i y Hy).
  - intros H. pose proof (H 0 z eq_refl). assert (max_of l <= x) by (apply IH; intros i y Hy; apply (H (S i) y Hy)). lia.
Qed.
Lemma max_lt l x : 0 < x -> max_of l < x <-> forall i y, l !! i = Some y -> y < x.
Proof. intros Hx. pose proof (max_le l (x - 1)) as H. split; [intros Hm i y Hy; pose proof (proj1 H ltac:(lia) i y Hy); lia|]. intros Hi. assert (max_of l <= x - 1); [|lia]. apply H. intros i y Hy. specialize (Hi i y Hy). lia. Qed.
Lemma slice_at (v : list nat) l r j : l <= j < r -> slice v l r !! (j - l) = v !! j.
Proof. intros H. rewrite slice_lookup by lia. f_equal. lia. Qed.
Lemma slice_in (v : list nat) l r i y : slice v l r !! i = Some y -> v !! (l + i) = Some y /\ l + i < r.
Proof. intros H. destruct (decide (l + i < r)) as [Hr|Hr]; [rewrite slice_lookup in H by exact Hr; auto|]. unfold slice in H. rewrite lookup_take_ge in H by lia. discriminate. Qed.
Lemma nat_max_laws : monoid_laws 0 Nat.max.
Proof. split; intros; lia. Qed.
Lemma turn_span v t i x : Inv 0 Nat.max t v -> v !! i = Some x -> 0 < x -> exists l r, st_max_right 0 Nat.max t (i + 1) (fun y => y <=? x) = Ok r /\ st_min_left 0 Nat.max t i (fun y => y <? x) = Ok l /\ span v i l r.
Proof.
  intros I Hx H0. pose proof (lookup_lt_Some _ _ _ Hx) as Hi. pose proof (inv_n _ _ _ _ I) as Hn.
  destruct (max_right_ok 0 Nat.max nat_max_laws t v I (i + 1) (fun y => y <=? x) ltac:(lia) ltac:(apply Nat.leb_le; lia)) as (r & Er & (R1 & R2 & R3)).
  destruct (min_left_ok 0 Nat.max nat_max_laws t v I i (fun y => y <? x) ltac:(lia) ltac:(apply Nat.ltb_lt; lia)) as (l & El & (L1 & L2 & L3)).
  change (mprod 0 Nat.max) with max_of in *. apply Nat.leb_le in R2. apply Nat.ltb_lt in L2. rewrite max_le in R2. rewrite (max_lt _ _ H0) in L2.
  exists l, r. split; [exact Er|]. split; [exact El|]. exists x. split_and!; [exact Hx|lia|lia|lia| | | |].
  - intros j y Hj Hy. apply (L2 (j - l)). rewrite slice_at by lia. exact Hy.
  - intros j y Hj Hy. apply (R2 (j - (i + 1))). rewrite slice_at by lia. exact Hy.
  - intros Hl. specialize (L3 Hl). apply Nat.ltb_ge in L3. destruct (lookup_lt_is_Some_2 v (l - 1) ltac:(lia)) as [y Hy]. exists y. split; [exact Hy|]. destruct (decide (x <= y)) as [|Hxy]; [assumption|]. exfalso.
    assert (max_of (slice v (l - 1) i) < x); [|lia]. apply (max_lt _ _ H0). intros k z [Hz Hk]%slice_in. destruct k as [|k]; [rewrite Nat.add_0_r in Hz; assert (z = y) by congruence; lia|]. apply (L2 k). rewrite slice_lookup by lia. rewrite <- Hz. f_equal. lia.
  - intros y Hy. pose proof (lookup_lt_Some _ _ _ Hy) as Hr. specialize (R3 Hr). apply Nat.leb_gt in R3. destruct (decide (x < y)) as [|Hxy]; [assumption|]. exfalso.
    assert (max_of (slice v (i + 1) (r + 1)) <= x); [|lia]. apply max_le. intros k z [Hz Hk]%slice_in. destruct (decide (i + 1 + k = r)) as [E|E]; [rewrite E in Hz; assert (z = y) by congruence; lia|]. apply (R2 k). rewrite slice_lookup by lia. exact Hz.
Qed.

(** Every section has one leftmost greatest value. *)
Lemma leftmost v l r : l < r <= length v -> exists i x, l <= i < r /\ v !! i = Some x /\ (forall j y, l <= j < i -> v !! j = Some y -> y < x) /\ (forall j y, i < j < r -> v !! j = Some y -> y <= x).
Proof.
  intros H. remember (r - S l) as k eqn:Ek. revert r H Ek. induction k as [|k IH]; intros r H Ek.
  - destruct (lookup_lt_is_Some_2 v l ltac:(lia)) as [x Hx]. exists l, x. split_and!; [lia|lia|exact Hx|intros; lia|intros; lia].
  - destruct (IH (r - 1) ltac:(lia) ltac:(lia)) as (i & x & Hi & Hx & A & B). destruct (lookup_lt_is_Some_2 v (r - 1) ltac:(lia)) as [z Hz]. destruct (decide (z <= x)) as [Hzx|Hzx].
    + exists i, x. split_and!; [lia|lia|exact Hx|exact A|]. intros j y Hj Hy. destruct (decide (j = r - 1)) as [->|]; [assert (y = z) by congruence; lia|]. apply (B j); [lia|exact Hy].
    + exists (r - 1), z. split_and!; [lia|lia|exact Hz| |intros; lia]. intros j y Hj Hy. destruct (Nat.lt_trichotomy j i) as [Hji|[->|Hji]]; [specialize (A j y ltac:(lia) Hy); lia|assert (y = x) by congruence; lia|specialize (B j y ltac:(lia) Hy); lia].
Qed.
Definition at0 (v : list nat) (i : nat) : nat := default 0 (v !! i).
Lemma section_max v (L R : nat -> nat) l r : (forall i, i < length v -> span v i (L i) (R i)) -> l < r <= length v -> max_of (slice v l r) = sumn (length v) (fun i => at0 v i * (ind (L i) (S i) l * ind (S i) (S (R i)) r)).
Proof.
  intros Sp H. destruct (leftmost v l r H) as (i & x & Hi & Hx & A & B). rewrite (sumn_one (length v) i); [|lia|].
  - destruct (Sp i ltac:(lia)) as (x' & Hx' & S1 & S2 & S3 & S4 & S5 & S6). assert (x' = x) as -> by congruence. unfold at0. rewrite Hx. cbn [default].
    rewrite (ind_in (L i)), (ind_in (S i)).
    + assert (max_of (slice v l r) <= x). { apply max_le. intros k y [Hy Hk]%slice_in. destruct (Nat.lt_trichotomy (l + k) i) as [Hki|[Hki|Hki]]; [specialize (A (l + k) y ltac:(lia) Hy); lia|rewrite Hki in Hy; assert (y = x) by congruence; lia|exact (B (l + k) y ltac:(lia) Hy)]. }
      pose proof (proj1 (max_le (slice v l r) _) (le_n _) (i - l) x ltac:(rewrite slice_at by lia; exact Hx)). cbn. lia.
    + split; [lia|]. destruct (decide (r < S (R i))) as [|Hr]; [assumption|]. exfalso. destruct (lookup_lt_is_Some_2 v (R i) ltac:(lia)) as [y Hy]. pose proof (S6 y Hy). specialize (B (R i) y ltac:(lia) Hy). lia.
    + split; [|lia]. destruct (decide (L i <= l)) as [|Hl]; [assumption|]. exfalso. destruct (S5 ltac:(lia)) as (y & Hy & Hyx). specialize (A (L i - 1) y ltac:(lia) Hy). lia.
  - intros j Hj Hne. destruct (Sp j Hj) as (y & Hy & S1 & S2 & S3 & S4 & S5 & S6). destruct (decide (L j <= l < S j /\ S j <= r < S (R j))) as [[Q1 Q2]|Q].
    + exfalso. destruct (decide (i < j)) as [Hij|Hij]; [specialize (S3 i x ltac:(lia) Hx); specialize (B j y ltac:(lia) Hy); lia|specialize (S4 i x ltac:(lia) Hx); specialize (A j y ltac:(lia) Hy); lia].
    + destruct (decide (L j <= l < S j)) as [Q1|Q1]; [rewrite (ind_out (S j)) by tauto; lia|rewrite (ind_out (L j)) by exact Q1; lia].
Qed.
Lemma total_ok v (L R : nat -> nat) : (forall i, i < length v -> span v i (L i) (R i)) -> sum_of_maxima v = sumn (length v) (fun i => at0 v i * (i + 1 - L i) * (R i - i)).
Proof.
  intros Sp. set (n := length v). set (F := fun i l r => at0 v i * (ind (L i) (S i) l * ind (S i) (S (R i)) r)).
  assert (sum_of_maxima v = sumn (S n) (fun r => sumn n (fun l => sumn n (fun i => F i l r)))) as ->.
  { unfold sum_of_maxima. fold n. apply sumn_ext. intros r Hr. rewrite (sumn_more r n); [|lia|].
    - apply sumn_ext. intros l Hl. apply section_max; [exact Sp|fold n; lia].
    - intros l Hl. apply sumn_zero. intros i Hi. unfold F. destruct (decide (L i <= l < S i)) as [Q|Q]; [rewrite (ind_out (S i) (S (R i)) r) by lia; lia|rewrite (ind_out (L i)) by exact Q; lia]. }
  rewrite (sumn_ext (S n) _ (fun r => sumn n (fun i => sumn n (fun l => F i l r)))) by (intros r _; apply sumn_swap). rewrite sumn_swap. apply sumn_ext. intros i Hi. destruct (Sp i Hi) as (x & Hx & S1 & S2 & _).
  rewrite (sumn_ext (S n) _ (fun r => (at0 v i * (i + 1 - L i)) * ind (S i) (S (R i)) r)).
  - rewrite sumn_mul, sumn_ind by (fold n in S2; lia). reflexivity.
  - intros r _. rewrite (sumn_ext n _ (fun l => (at0 v i * ind (S i) (S (R i)) r) * ind (L i) (S i) l)) by (intros l _; unfold F; lia). rewrite sumn_mul, sumn_ind by lia. replace (S i - L i) with (i + 1 - L i) by lia. lia.
Qed.

Lemma from_ok v : (Z.of_nat (length v) < 2 ^ 32)%Z -> exists t, st_from 0 Nat.max v = Ok t /\ Inv 0 Nat.max t v.
Proof. apply (st_from_inv 0 Nat.max v). Qed.
Lemma spans_ok v : (Z.of_nat (length v) < 2 ^ 32)%Z -> Forall (fun x => 0 < x) v -> exists out, spans v = Ok (out, sum_of_maxima v) /\ length out = length v /\ forall i l r, out !! i = Some (l, r) -> span v i l r.
Proof.
  intros HZ Hp. unfold spans. destruct (from_ok v HZ) as (t & -> & I). cbn [mbind res_bind].
  destruct (rfor_range_inv (fun k s => length s.1 = k /\ (forall i l r, s.1 !! i = Some (l, r) -> span v i l r) /\ s.2 = sumn k (fun i => at0 v i * (i + 1 - (default (0, 0) (s.1 !! i)).1) * ((default (0, 0) (s.1 !! i)).2 - i))) 0 (length v) (span_turn v t) ([], 0)) as ([out tot] & E & H1 & H2 & H3).
  - lia.
  - cbn. split_and!; [reflexivity|intros i l r H; discriminate|reflexivity].
  - intros i [out tot] Hi (H1 & H2 & H3). cbn [fst snd] in *. destruct (lookup_lt_is_Some_2 v i ltac:(lia)) as [x Hx]. destruct (turn_span v t i x I Hx ltac:(rewrite Forall_lookup in Hp; exact (Hp i x Hx))) as (l & r & Er & El & Sp).
    unfold span_turn. rewrite (vget_ok _ _ _ Hx). cbn [mbind res_bind]. rewrite Er. cbn [mbind res_bind]. rewrite El. cbn [mbind res_bind]. eexists. split; [reflexivity|]. cbn [fst snd]. split_and!.
    + rewrite app_length. cbn. lia.
    + intros j l' r' Hj. apply lookup_app_Some in Hj as [Hj|[Hge Hj]]; [exact (H2 j l' r' Hj)|]. apply list_lookup_singleton_Some in Hj as [Hj0 [= <- <-]]. assert (j = i) as -> by lia. exact Sp.
    + replace (i + 1) with (S i) at 2 by lia. cbn [sumn]. rewrite lookup_app_r, H1, Nat.sub_diag by lia. cbn [lookup list_lookup default fst snd]. unfold at0 at 2. rewrite Hx. cbn [default]. rewrite H3. f_equal.
      apply sumn_ext. intros j Hj. rewrite lookup_app_l by lia. reflexivity.
  - cbn [fst snd] in *. exists out. unfold range in *. rewrite E. split; [|split; [exact H1|exact H2]]. do 2 f_equal. rewrite H3. symmetry. apply (total_ok v (fun i => (default (0, 0) (out !! i)).1) (fun i => (default (0, 0) (out !! i)).2)).
    intros i Hi. destruct (lookup_lt_is_Some_2 out i ltac:(lia)) as [[l r] Ho]. rewrite Ho. cbn. exact (H2 i l r Ho).
Qed.
Lemma spans_zero v i : (Z.of_nat (length v) < 2 ^ 32)%Z -> v !! i = Some 0 -> spans v = Panic.
Proof.
  intros HZ H0. unfold spans. destruct (from_ok v HZ) as (t & -> & I). cbn [mbind res_bind]. pose proof (inv_n _ _ _ _ I) as Hn.
  assert (forall xs s, Forall (fun j => j < length v) xs -> i ∈ xs -> rfor xs (span_turn v t) s = Panic) as H.
  { induction xs as [|j xs IH]; intros s F Hin; [apply elem_of_nil in Hin; destruct Hin|]. apply Forall_cons in F as [Fj F]. destruct (lookup_lt_is_Some_2 v j Fj) as [x Hx]. cbn [rfor]. destruct (decide (x = 0)) as [->|Hx0].
    - assert (span_turn v t j s = Panic) as ->; [|reflexivity]. unfold span_turn. rewrite (vget_ok _ _ _ Hx). cbn [mbind res_bind].
      destruct (max_right_ok 0 Nat.max nat_max_laws t v I (j + 1) (fun y => y <=? 0) ltac:(lia) eq_refl) as (r & -> & _). cbn [mbind res_bind]. rewrite (min_left_panic 0 Nat.max t j (fun y => y <? 0)) by (right; reflexivity). reflexivity.
    - destruct (turn_span v t j x I Hx ltac:(lia)) as (l & r & Er & El & _). assert (exists s', span_turn v t j s = Ok s') as (s' & ->).
      { unfold span_turn. rewrite (vget_ok _ _ _ Hx). cbn [mbind res_bind]. rewrite Er. cbn [mbind res_bind]. rewrite El. cbn [mbind res_bind]. eauto. }
      cbn [mbind res_bind]. apply IH; [exact F|]. apply elem_of_cons in Hin as [->|Hin]; [congruence|exact Hin]. }
  apply H; [|unfold range; apply elem_of_seq; apply lookup_lt_Some in H0; lia]. apply Forall_forall. intros j Hj. unfold range in Hj. apply elem_of_seq in Hj. lia.
Qed.
