(** Consequences of the prefix function and the Z array. *)
From Verif Require Import Prelude PrefixSpec WordsSpec.

Section Words.
  Context {T : Type}.
  Implicit Types s p t a b : list T.

  Lemma take_eq_lookup a b k : k <= length a -> k <= length b -> take k a = take k b <-> forall j, j < k -> a !! j = b !! j.
  Proof.
    intros Ha Hb. split.
    - intros H j Hj. rewrite <- (lookup_take a k j Hj), <- (lookup_take b k j Hj), H. reflexivity.
    - intros H. apply list_eq. intros j. destruct (decide (j < k)) as [Hj|Hj]; [rewrite !lookup_take by exact Hj; auto|].
      rewrite !lookup_take_ge by lia. reflexivity.
  Qed.
  Lemma prefix_lookup_iff p l : p `prefix_of` l <-> length p <= length l /\ forall j, j < length p -> p !! j = l !! j.
  Proof.
    split.
    - intros [l' ->]. rewrite app_length. split; [lia|]. intros j Hj. rewrite lookup_app_l by exact Hj. reflexivity.
    - intros [Hl H]. exists (drop (length p) l). rewrite <- (take_drop (length p) l) at 1. f_equal. rewrite <- (firstn_all p) at 2. symmetry.
      apply take_eq_lookup; [lia|lia|]. exact H.
  Qed.
  Lemma suffix_lookup_iff p l : p `suffix_of` l <-> length p <= length l /\ forall j, j < length p -> p !! j = l !! (length l - length p + j).
  Proof.
    split.
    - intros [l' ->]. rewrite app_length. split; [lia|]. intros j Hj. rewrite lookup_app_r by lia. f_equal. lia.
    - intros [Hl H]. exists (take (length l - length p) l). rewrite <- (take_drop (length l - length p) l) at 1. f_equal.
      apply list_eq. intros j. rewrite lookup_drop. destruct (decide (j < length p)) as [Hj|Hj]; [symmetry; apply H; exact Hj|].
      rewrite !lookup_ge_None_2 by lia. reflexivity.
  Qed.
  Lemma border_iff s k : border s k <-> k < length s /\ forall j, j < k -> s !! j = s !! (length s - k + j).
  Proof.
    unfold border. split; intros [Hk H]; (split; [exact Hk|]).
    - intros j Hj. rewrite <- (lookup_take s k j Hj), H, lookup_drop. reflexivity.
    - apply list_eq. intros j. rewrite lookup_drop. destruct (decide (j < k)) as [Hj|Hj]; [rewrite lookup_take by exact Hj; auto|].
      rewrite lookup_take_ge, lookup_ge_None_2 by lia. reflexivity.
  Qed.
  Lemma lcp_iff a b k : longest_common_prefix a b k -> forall k', k' <= k <-> k' <= length a /\ k' <= length b /\ forall j, j < k' -> a !! j = b !! j.
  Proof.
    intros [(p & a' & b' & -> & -> & <-) Hmax] k'. split.
    - intros Hk. rewrite !app_length. split; [lia|]. split; [lia|]. intros j Hj. rewrite !lookup_app_l by lia. reflexivity.
    - intros (Ha & Hb & H). apply take_eq_lookup in H; [|exact Ha|exact Hb].
      specialize (Hmax (take k' (p ++ a')) (drop k' (p ++ a')) (drop k' (p ++ b'))). rewrite take_length in Hmax.
      specialize (Hmax ltac:(symmetry; apply take_drop) ltac:(rewrite H; symmetry; apply take_drop)). lia.
  Qed.

  (** ** Borders and periods *)
  Lemma border_period s k : s <> [] -> border s k <-> k < length s /\ period s (length s - k).
  Proof.
    intros Hs. rewrite border_iff. unfold period. split.
    - intros [Hk H]. split; [exact Hk|]. split; [lia|]. intros i Hi. rewrite (H i) by lia. f_equal. lia.
    - intros (Hk & _ & H). split; [exact Hk|]. intros j Hj. rewrite (H j) by lia. f_equal. lia.
  Qed.

  (** Borders of a prefix are nested. *)
  Lemma border_nest s n k k' : n <= length s -> border (take n s) k -> border (take n s) k' -> k' < k -> border (take k s) k'.
  Proof.
    intros Hn. rewrite !border_iff. rewrite !take_length_le by (try lia). intros [Hk H] [Hk' H'] Hlt. rewrite take_length_le by lia.
    split; [exact Hlt|]. intros j Hj. rewrite !lookup_take by lia.
    specialize (H (k - k' + j) ltac:(lia)). specialize (H' j Hj). rewrite !lookup_take in H by lia. rewrite !lookup_take in H' by lia.
    rewrite H', H. f_equal. lia.
  Qed.
  Lemma border_trans s n k k' : n <= length s -> border (take n s) k -> border (take k s) k' -> border (take n s) k'.
  Proof.
    intros Hn. rewrite !border_iff. rewrite !take_length_le by lia. intros [Hk H]. rewrite take_length_le by lia. intros [Hk' H'].
    split; [lia|]. intros j Hj. specialize (H (k - k' + j) ltac:(lia)). specialize (H' j Hj). rewrite !lookup_take in H by lia. rewrite !lookup_take in H' by lia.
    rewrite !lookup_take by lia. rewrite H', H. f_equal. lia.
  Qed.

  Lemma follow_borders s pi (Hpi : prefix_function s pi) fuel : forall n k, n <= length s -> border (take n s) k ->
    (forall k', border (take n s) k' -> k' <= k) -> k < fuel ->
    forall k', k' ∈ follow fuel pi k <-> border (take n s) k'.
  Proof.
    destruct Hpi as [Hl Hpi]. induction fuel as [|fuel IH]; intros n k Hn Hb Hmax Hf k'; [lia|]. cbn [follow].
    rewrite elem_of_cons. destruct k as [|k].
    - rewrite elem_of_nil. split; [intros [->|[]]; exact Hb|]. intros H. left. specialize (Hmax _ H). lia.
    - pose proof Hb as [Hk _]. rewrite take_length_le in Hk by lia.
      destruct (lookup_lt_is_Some_2 pi k) as [x Hx]; [lia|]. rewrite Hx. destruct (Hpi k x Hx) as [Bx Mx]. rewrite Nat.add_1_r in Bx, Mx.
      pose proof Bx as [Hxk _]. rewrite take_length_le in Hxk by lia.
      rewrite (IH (S k) x ltac:(lia) Bx Mx ltac:(lia) k'). split.
      + intros [->|H]; [exact Hb|]. eapply border_trans; eassumption.
      + intros H. specialize (Hmax _ H). destruct (decide (k' = S k)) as [->|Hne]; [left; reflexivity|right].
        eapply border_nest; [exact Hn|exact Hb|exact H|lia].
  Qed.

  (** ** Powers *)
  Lemma power_length s (w : list T) k : power s w k -> length s = k * length w.
  Proof. intros ->. induction k as [|k IH]; [reflexivity|]. cbn [replicate concat]. rewrite app_length, IH. lia. Qed.
  Lemma power_lookup s (w : list T) k i : power s w k -> i < length s -> s !! i = w !! (i mod length w).
  Proof.
    revert s i. induction k as [|k IH]; intros s i ->; [cbn; lia|]. cbn [replicate concat]. rewrite app_length. intros Hi.
    destruct (decide (i < length w)) as [Hw|Hw]; [rewrite lookup_app_l by exact Hw; rewrite Nat.mod_small by exact Hw; reflexivity|].
    rewrite lookup_app_r by lia. rewrite (IH (concat (replicate k w))) by (try reflexivity; lia). f_equal.
    assert (length w <> 0) as H0. { intros H0. pose proof (power_length _ w k eq_refl) as Hp. rewrite H0 in Hp. lia. }
    replace i with ((i - length w) + 1 * length w) at 2 by lia. rewrite Nat.mod_add by exact H0. reflexivity.
  Qed.
  Lemma power_period s (w : list T) k : power s w k -> w <> [] -> period s (length w).
  Proof.
    intros Hp Hw. assert (length w <> 0) as H0 by (destruct w; [contradiction|cbn; lia]). split; [lia|]. intros i Hi.
    rewrite (power_lookup s w k i Hp), (power_lookup s w k _ Hp) by lia. f_equal. rewrite <- (Nat.mod_add i 1 (length w)) by exact H0. f_equal. lia.
  Qed.
  Lemma period_power s d k : period s d -> length s = k * d -> power s (take d s) k.
  Proof.
    revert s. induction k as [|k IH]; intros s Hp Hl; [destruct s; [reflexivity|cbn in Hl; lia]|].
    unfold power. cbn [replicate concat]. rewrite <- (take_drop d s) at 1. f_equal.
    destruct Hp as [Hd Hp]. destruct k as [|k].
    - cbn. apply nil_length_inv. rewrite drop_length. lia.
    - transitivity (concat (replicate (S k) (take d (drop d s)))); [apply (IH (drop d s))|f_equal; f_equal].
      3: { apply list_eq. intros j. destruct (decide (j < d)) as [Hj|Hj]; [|rewrite !lookup_take_ge by lia; reflexivity].
        rewrite !lookup_take by exact Hj. rewrite lookup_drop. rewrite (Hp j) by lia. f_equal. lia. }
      + split; [exact Hd|]. intros i Hi. rewrite drop_length in Hi. rewrite !lookup_drop. rewrite (Hp (d + i)) by lia. f_equal. lia.
      + rewrite drop_length. lia.
  Qed.

  (** Two periods that fit together into s have their gcd as a period. *)
  Lemma period_sub s d e : period s d -> period s e -> d < e -> d + e <= length s -> period s (e - d).
  Proof.
    intros [Hd Pd] [He Pe] Hlt Hle. split; [lia|]. intros i Hi. destruct (decide (d <= i)) as [Hdi|Hdi].
    - transitivity (s !! (i - d)); [rewrite (Pd (i - d)) by lia; f_equal; lia|]. rewrite (Pe (i - d)) by lia. f_equal. lia.
    - transitivity (s !! (i + e)); [apply Pe; lia|]. symmetry. rewrite (Pd (i + (e - d))) by lia. f_equal. lia.
  Qed.
  Lemma period_gcd s d : forall e, period s d -> period s e -> d + e <= length s -> period s (Nat.gcd d e).
  Proof.
    intros e. remember (d + e) as m eqn:Em. revert d e Em. induction m as [m IH] using lt_wf_ind. intros d e -> Hd He Hle.
    destruct (Nat.lt_trichotomy d e) as [H|[->|H]].
    - replace (Nat.gcd d e) with (Nat.gcd d (e - d)).
      + assert (0 < d) by apply Hd. apply (IH (d + (e - d))); try lia; [exact Hd|]. apply period_sub; assumption.
      + rewrite Nat.gcd_sub_diag_r by lia. reflexivity.
    - rewrite Nat.gcd_diag. exact He.
    - rewrite Nat.gcd_comm. replace (Nat.gcd e d) with (Nat.gcd e (d - e)).
      + assert (0 < e) by apply He. apply (IH (e + (d - e))); try lia; [exact He|]. apply period_sub; try assumption. lia.
      + rewrite Nat.gcd_sub_diag_r by lia. reflexivity.
  Qed.

  (** The smallest period divides the length of the root of every proper power. *)
  Lemma least_period_power s d (w : list T) k : period s d -> (forall e, period s e -> d <= e) -> power s w k -> 2 <= k -> w <> [] ->
    exists q, length w = q * d.
  Proof.
    intros Hd Hmin Hp Hk Hw. pose proof (power_period s w k Hp Hw) as He. pose proof (power_length s w k Hp) as Hl.
    pose proof (Hmin _ He) as Hle. assert (2 * length w <= k * length w) by (apply Nat.mul_le_mono_r; exact Hk).
    pose proof (period_gcd s d (length w) Hd He ltac:(lia)) as Hg. pose proof (Hmin _ Hg) as H1.
    destruct (Nat.gcd_divide_l d (length w)) as [x Hx]. destruct (Nat.gcd_divide_r d (length w)) as [y Hy].
    assert (0 < d) by apply Hd. assert (Nat.gcd d (length w) = d) as Eg by (destruct x as [|x]; nia). exists y. rewrite Eg in Hy. exact Hy.
  Qed.

  (** ** Searching *)
  Lemma kmp_search p t c pi : c ∉ p -> c ∉ t -> prefix_function (p ++ [c] ++ t) pi ->
    forall i, i < length t -> exists k, pi !! (length p + 1 + i) = Some k /\ k <= length p /\ (k = length p <-> stops_at t p i).
  Proof.
    intros Hp Ht [Hl Hpi] i Hi. rewrite app_length in Hl. cbn [app length] in Hl.
    destruct (lookup_lt_is_Some_2 pi (length p + 1 + i)) as [k Hk]; [lia|]. exists k. split; [exact Hk|].
    destruct (Hpi _ _ Hk) as [Hb Hmax]. set (s := p ++ [c] ++ t) in *. set (P := take (length p + 1 + i + 1) s) in *.
    assert (length s = length p + 1 + length t) as Ls by (unfold s; rewrite app_length; cbn [app length]; lia).
    assert (length P = length p + 1 + i + 1) as LP by (unfold P; rewrite take_length_le; lia).
    assert (forall j, j < length p -> P !! j = p !! j) as P1.
    { intros j Hj. unfold P, s. rewrite lookup_take by lia. rewrite lookup_app_l by exact Hj. reflexivity. }
    assert (P !! length p = Some c) as P2.
    { unfold P, s. rewrite lookup_take by lia. apply list_lookup_middle. reflexivity. }
    assert (forall j, j <= i -> P !! (length p + 1 + j) = t !! j) as P3.
    { intros j Hj. unfold P, s. rewrite lookup_take by lia. rewrite lookup_app_r by lia. replace (length p + 1 + j - length p) with (S j) by lia. reflexivity. }
    clearbody P. assert (k <= length p) as Hkp.
    { apply border_iff in Hb as [Hb1 Hb2]. destruct (decide (k <= length p)) as [?|Hgt]; [assumption|exfalso].
      specialize (Hb2 (length p) ltac:(lia)). rewrite P2 in Hb2. replace (length P - k + length p) with (length p + 1 + (length P - k - 1)) in Hb2 by lia.
      rewrite P3 in Hb2 by lia. apply Ht. eapply elem_of_list_lookup_2. symmetry. exact Hb2. }
    split; [exact Hkp|]. unfold stops_at. rewrite suffix_lookup_iff. rewrite take_length_le by lia. split.
    - intros ->. apply border_iff in Hb as [Hb1 Hb2].
      assert (length p <= i + 1) as Hpi1.
      { destruct (decide (length p <= i + 1)) as [?|Hgt]; [assumption|exfalso]. specialize (Hb2 (length p - (i + 2)) ltac:(lia)).
        replace (length P - length p + (length p - (i + 2))) with (length p) in Hb2 by lia. rewrite P2, P1 in Hb2 by lia.
        apply Hp. eapply elem_of_list_lookup_2. exact Hb2. }
      split; [exact Hi|]. split; [exact Hpi1|]. intros j Hj. specialize (Hb2 j Hj). rewrite P1 in Hb2 by exact Hj. rewrite Hb2.
      replace (length P - length p + j) with (length p + 1 + (i + 1 - length p + j)) by lia. rewrite P3 by lia. rewrite lookup_take by lia. reflexivity.
    - intros (_ & Hle & H). apply Nat.le_antisymm; [exact Hkp|]. apply Hmax. apply border_iff. split; [lia|]. intros j Hj.
      rewrite P1 by exact Hj. rewrite (H j Hj). rewrite lookup_take by lia.
      replace (length P - length p + j) with (length p + 1 + (i + 1 - length p + j)) by lia. rewrite P3 by lia. reflexivity.
  Qed.

  Lemma z_search p t z : p <> [] -> z_array (p ++ t) z ->
    forall i, i < length t -> exists k, z !! (length p + i) = Some k /\ (length p <= k <-> starts_at t p i).
  Proof.
    intros Hp [Hl Hz] i Hi. rewrite app_length in Hl.
    destruct (lookup_lt_is_Some_2 z (length p + i)) as [k Hk]; [lia|]. exists k. split; [exact Hk|].
    specialize (Hz _ _ Hk). assert (length p <> 0) by (destruct p; [contradiction|cbn; lia]).
    destruct (Nat.eqb_spec (length p + i) 0); [lia|]. rewrite (lcp_iff _ _ _ Hz (length p)). unfold starts_at. rewrite prefix_lookup_iff.
    rewrite app_length, !drop_length, app_length. split.
    - intros (_ & H1 & H2). split; [lia|]. split; [lia|]. intros j Hj. specialize (H2 j Hj). rewrite lookup_app_l in H2 by exact Hj.
      rewrite lookup_drop, lookup_app_r in H2 by lia. rewrite lookup_drop, H2. f_equal. lia.
    - intros (_ & H1 & H2). split; [lia|]. split; [lia|]. intros j Hj. rewrite lookup_app_l by exact Hj. rewrite (H2 j Hj), !lookup_drop, lookup_app_r by lia.
      f_equal. lia.
  Qed.

  (** The Z array knows the borders of every prefix. *)
  Lemma z_borders s z : z_array s z -> forall i k, i < length s -> 0 < k <= i ->
    exists x, z !! (i + 1 - k) = Some x /\ (border (take (i + 1) s) k <-> k <= x).
  Proof.
    intros [Hl Hz] i k Hi Hk. destruct (lookup_lt_is_Some_2 z (i + 1 - k)) as [x Hx]; [lia|]. exists x. split; [exact Hx|].
    specialize (Hz _ _ Hx). destruct (Nat.eqb_spec (i + 1 - k) 0); [lia|]. rewrite (lcp_iff _ _ _ Hz k), border_iff, take_length_le, drop_length by lia.
    split.
    - intros [_ H]. split; [lia|]. split; [lia|]. intros j Hj. specialize (H j Hj). rewrite !lookup_take in H by lia. rewrite H, lookup_drop. reflexivity.
    - intros (_ & _ & H). split; [lia|]. intros j Hj. specialize (H j Hj). rewrite !lookup_take by lia. rewrite H, lookup_drop. reflexivity.
  Qed.

  Lemma starts_stops t p i : p <> [] -> stops_at t p i <-> length p <= i + 1 /\ i < length t /\ starts_at t p (i + 1 - length p).
  Proof.
    intros Hp. assert (length p <> 0) by (destruct p; [contradiction|cbn; lia]).
    unfold stops_at, starts_at. rewrite suffix_lookup_iff, prefix_lookup_iff, drop_length. split.
    - intros (Hi & H1 & H2). rewrite take_length_le in H1, H2 by lia. split; [lia|]. split; [exact Hi|]. split; [lia|]. split; [lia|].
      intros j Hj. rewrite (H2 j Hj), lookup_take by lia. rewrite lookup_drop. reflexivity.
    - intros (H1 & Hi & _ & _ & H2). rewrite take_length_le by lia. split; [exact Hi|]. split; [exact H1|].
      intros j Hj. rewrite (H2 j Hj), lookup_take by lia. rewrite lookup_drop. reflexivity.
  Qed.
End Words.
