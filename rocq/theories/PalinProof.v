From Coq Require Import Sorting.Sorted.
From Verif Require Import Prelude PrefixModel PrefixSpec PrefixProps WordsSpec WordsProof HeapUseProof PalinModel PalinSpec.

Section Palin.
  Context {T : Type} (eqb : T -> T -> bool) (Heq : forall a b, eqb a b = true <-> a = b).
  Implicit Types s t : list T.

  Lemma rev_drop s k : k <= length s -> drop (length s - k) (rev s) = rev (take k s).
  Proof. intros H. rewrite skipn_rev. do 2 f_equal. lia. Qed.

  Lemma longest_palin_ok c s : c ∉ s -> exists k, longest_palin eqb c s = Ok k /\ k <= length s /\ palindrome (take k s) /\ forall k', k' <= length s -> palindrome (take k' s) -> k' <= k.
  Proof.
    intros Hc. unfold longest_palin. set (u := s ++ [c] ++ rev s). destruct (C15_kmp eqb Heq u) as (pi & E & Hl & Hpi). rewrite E. cbn [mbind res_bind].
    assert (Lu : length u = 2 * length s + 1) by (unfold u; rewrite !app_length, rev_length; cbn; lia).
    destruct (lookup_lt_is_Some_2 pi (2 * length s)) as [k Hk]; [lia|]. rewrite last_lookup, Hl, Lu. replace (pred (2 * length s + 1)) with (2 * length s) by lia. rewrite Hk. exists k. split; [reflexivity|].
    destruct (Hpi _ _ Hk) as [Hb Hmax]. rewrite <- Lu, firstn_all in Hb, Hmax.
    assert (B : forall k, k <= length s -> border u k <-> palindrome (take k s)).
    { intros k0 H0. unfold border, palindrome. assert (take k0 u = take k0 s) as -> by (unfold u; apply take_app_le; exact H0).
      assert (drop (length u - k0) u = rev (take k0 s)) as ->; [|split; [intros [_ H]; auto|intros H; split; [lia|auto]]].
      rewrite Lu. unfold u. rewrite (app_assoc s [c]). rewrite drop_app_ge by (rewrite app_length; cbn; lia). rewrite <- (rev_drop s k0 H0). f_equal. rewrite app_length. cbn. lia. }
    assert (k <= length s) as Hks.
    { destruct (decide (k <= length s)) as [?|Hgt]; [assumption|]. exfalso. apply border_iff in Hb as [Hb1 Hb2]. specialize (Hb2 (length s) ltac:(lia)). assert (u !! length s = Some c) as Ec by (apply list_lookup_middle; reflexivity). rewrite Ec in Hb2.
      assert (forall j, length s < j -> u !! j = rev s !! (j - length s - 1)) as Er by (intros j Hj; unfold u; rewrite (app_assoc s [c]), lookup_app_r by (rewrite app_length; cbn; lia); f_equal; rewrite app_length; cbn; lia). rewrite Er in Hb2 by lia. symmetry in Hb2. apply elem_of_list_lookup_2 in Hb2. apply Hc. rewrite elem_of_list_In in *. apply in_rev. exact Hb2. }
    split; [exact Hks|]. split; [apply B; assumption|]. intros k' Hk' P. apply Hmax, B; assumption.
  Qed.
  Lemma make_palin_ok c s : c ∉ s -> exists w, make_palin eqb c s = Ok w /\ palindrome w /\ (exists a, w = a ++ s) /\ forall w', palindrome w' -> (exists a, w' = a ++ s) -> length w <= length w'.
  Proof.
    intros Hc. destruct (longest_palin_ok c s Hc) as (k & E & Hk & P & M). unfold make_palin. rewrite E. cbn [mbind res_bind]. eexists. split; [reflexivity|]. unfold palindrome in *. split; [|split; [eauto|]].
    - rewrite rev_app_distr, rev_involutive. assert (rev s = rev (drop k s) ++ take k s) as -> by (rewrite <- (take_drop k s) at 1; rewrite rev_app_distr, P; reflexivity). rewrite <- app_assoc, take_drop. reflexivity.
    - intros w' Hw [a ->]. rewrite !app_length, rev_length, drop_length. destruct (decide (length a <= length s)) as [Ha|Ha]; [|lia].
      assert (length s - length a <= k); [|lia]. apply M; [lia|]. rewrite <- rev_drop by lia. replace (length s - (length s - length a)) with (length a) by lia.
      rewrite rev_app_distr in Hw. assert (s = drop (length a) (rev s) ++ rev a) as Es.
      { apply (f_equal (drop (length a))) in Hw. rewrite drop_app in Hw. rewrite drop_app_le in Hw by (rewrite rev_length; exact Ha). symmetry. exact Hw. }
      rewrite Es at 3. rewrite take_app_alt; [reflexivity|]. rewrite drop_length, rev_length. reflexivity.
  Qed.
  Lemma palin_prefixes_ok s : exists out, palin_prefixes eqb s = Ok out /\ StronglySorted lt out /\ forall k, k ∈ out <-> 1 <= k <= length s /\ palindrome (take k s).
  Proof.
    unfold palin_prefixes. destruct (C16_z_function eqb Heq (s ++ rev s)) as (z & E & Hl & Hz). rewrite E. cbn [mbind res_bind]. rewrite app_length, rev_length in Hl.
    assert (Z0 : forall k, 1 <= k <= length s -> exists x, z !! (2 * length s - k) = Some x /\ (k <= x <-> palindrome (take k s))).
    { intros k Hk. destruct (lookup_lt_is_Some_2 z (2 * length s - k)) as [x Hx]; [lia|]. exists x. split; [exact Hx|]. specialize (Hz _ _ Hx). destruct (Nat.eqb_spec (2 * length s - k) 0); [lia|].
      rewrite (lcp_iff _ _ _ Hz k). rewrite drop_length, app_length, rev_length. assert (Ed : drop (2 * length s - k) (s ++ rev s) = rev (take k s)) by (rewrite drop_app_ge by lia; rewrite <- (rev_drop s k) by lia; f_equal; lia).
      rewrite Ed. unfold palindrome. rewrite <- (take_eq_lookup (s ++ rev s) (rev (take k s)) k) by (rewrite ?rev_length, ?app_length, ?take_length; lia). rewrite take_app_le by lia. rewrite (take_ge (rev (take k s))) by (rewrite rev_length, take_length; lia).
      split; [intros (_ & _ & H); auto|intros H; split; [lia|]; split; [lia|auto]]. }
    unfold range_incl. replace (S (length s) - 1) with (length s) by lia.
    assert (L : forall m, m <= length s -> exists out, rfor (seq 1 m) (fun k out => x ← vget z (2 * length s - k); Ok (if k <=? x then out ++ [k] else out)) [] = Ok out /\ StronglySorted lt out /\ forall k, k ∈ out <-> 1 <= k <= m /\ palindrome (take k s)); [|apply L; lia].
    induction m as [|m IH]; intros Hm.
    - exists []. split; [reflexivity|]. split; [constructor|]. intros k. split; [intros H; inversion H|lia].
    - destruct IH as (out & Eo & So & Io); [lia|]. destruct (Z0 (S m) ltac:(lia)) as (x & Hx & Hp). rewrite seq_S, rfor_app, Eo. cbn [mbind res_bind rfor plus]. rewrite (vget_ok _ _ _ Hx). cbn [mbind res_bind].
      eexists. split; [reflexivity|]. destruct (Nat.leb_spec (S m) x) as [Hle|Hlt].
      + split; [apply sorted_snoc; [exact So|]; intros y Hy; apply Io in Hy; lia|]. intros k. rewrite elem_of_app, elem_of_list_singleton, Io. split; [intros [[H1 H2]| ->]; [split; [lia|exact H2]|split; [lia|apply Hp; exact Hle]]|]. intros [H1 H2]. destruct (decide (k = S m)); [auto|]. left. split; [lia|exact H2].
      + split; [exact So|]. intros k. rewrite Io. split; [intros [H1 H2]; split; [lia|exact H2]|]. intros [H1 H2]. destruct (decide (k = S m)) as [->|]; [apply Hp in H2; lia|]. split; [lia|exact H2].
  Qed.
  Lemma is_rotation_ok s t : exists b, is_rotation eqb s t = Ok b /\ (b = true <-> rotation s t).
  Proof.
    unfold is_rotation. destruct (Nat.eqb_spec (length s) (length t)) as [El|Nl]; [|exists false; split; [reflexivity|]; split; [discriminate|]; intros (a & b & -> & ->); rewrite !app_length in Nl; lia].
    destruct (decide (s = [])) as [->|Hs].
    { destruct t; [|discriminate]. exists true. split; [reflexivity|]. split; [intros _; exists [], []; auto|reflexivity]. }
    destruct (C16_z_function eqb Heq (s ++ t ++ t)) as (z & E & Hz). rewrite E. cbn [mbind res_bind]. pose proof (z_search s (t ++ t) z Hs Hz) as Q. rewrite app_length in Q.
    assert (length s <> 0) as Hn0 by (destruct s; [contradiction|cbn; lia]).
    assert (L : forall m, m <= length s -> exists b, rfor (seq 0 m) (fun i b => x ← vget z (length s + i); Ok (b || (length s <=? x))) (length s =? 0) = Ok b /\ (b = true <-> exists i, i < m /\ starts_at (t ++ t) s i)).
    { induction m as [|m IH]; intros Hm.
      - exists false. destruct (Nat.eqb_spec (length s) 0); [lia|]. split; [reflexivity|]. split; [discriminate|]. intros (i & Hi & _). lia.
      - destruct IH as (b & Eb & Ib); [lia|]. destruct (Q m ltac:(lia)) as (x & Hx & Hxs). rewrite seq_S, rfor_app, Eb. cbn [mbind res_bind rfor plus]. rewrite (vget_ok _ _ _ Hx). cbn [mbind res_bind]. eexists. split; [reflexivity|].
        rewrite orb_true_iff, Nat.leb_le, Ib, Hxs. split; [intros [(i & Hi & H)|H]; [exists i; split; [lia|exact H]|exists m; auto]|]. intros (i & Hi & H). destruct (decide (i = m)) as [->|]; [auto|]. left. exists i. split; [lia|exact H]. }
    unfold range. rewrite Nat.sub_0_r. destruct (L (length s) ltac:(lia)) as (b & Eb & Ib). exists b. split; [exact Eb|]. rewrite Ib. split.
    - intros (i & Hi & _ & [k Hk]). exists (drop i t), (take i t). rewrite take_drop. split; [|reflexivity]. rewrite drop_app_le in Hk by lia.
      rewrite <- (take_app s k), <- Hk. rewrite take_app_ge by (rewrite drop_length; lia). f_equal. f_equal. rewrite drop_length. lia.
    - intros (a & c & -> & ->). destruct (decide (length a = 0)) as [Ha|Ha].
      + destruct a; [|discriminate]. exists 0. split; [lia|]. split; [lia|]. rewrite drop_0, app_nil_r. exists c. reflexivity.
      + exists (length c). rewrite app_length. split; [lia|]. split; [rewrite !app_length; lia|]. rewrite <- app_assoc, drop_app. exists a. rewrite <- !app_assoc. reflexivity.
  Qed.

  (** ** Distinct substrings *)
  Lemma max_ge z (x : nat) : x ∈ z -> x <= foldr Nat.max 0 z.
  Proof. induction 1 as [x z|x y z _ IH]; cbn; lia. Qed.
  Lemma max_in z : foldr Nat.max 0 z = 0 \/ foldr Nat.max 0 z ∈ z.
  Proof. induction z as [|x z IH]; cbn; [auto|]. destruct (Nat.max_spec x (foldr Nat.max 0 z)) as [[_ ->]|[_ ->]]; [destruct IH as [H|H]; [lia|right; right; exact H]|right; left]. Qed.
  (** A suffix of p ++ [x] of length k is a substring of p exactly when k is at most the largest entry of the Z array of the reversal. *)
  Lemma suffix_old (p : list T) (x : T) z (u w : list T) : z_array (rev (p ++ [x])) z -> p ++ [x] = u ++ w -> w <> [] -> (substring w p <-> length w <= foldr Nat.max 0 z).
  Proof.
    intros [Hl Hz] E Hw. set (r := rev (p ++ [x])) in *. assert (Er : r = rev w ++ rev u) by (unfold r; rewrite E; apply rev_app_distr). assert (length w <> 0) as Hw0 by (destruct w; [contradiction|cbn; lia]). split.
    - intros (a & b & Ep). assert (Er2 : r = (x :: rev b) ++ rev w ++ rev a) by (unfold r; rewrite Ep, !rev_app_distr; cbn; rewrite <- app_assoc; reflexivity).
      destruct (lookup_lt_is_Some_2 z (length (x :: rev b))) as [y Hy]; [rewrite Hl, Er2, !app_length, !rev_length; cbn; lia|]. transitivity y; [|eapply max_ge, elem_of_list_lookup_2; eauto].
      specialize (Hz _ _ Hy). cbn [length Nat.eqb] in Hz. destruct Hz as [_ Hz]. rewrite <- (rev_length w). apply (Hz (rev w) (rev u) (rev a)); [exact Er|]. change (S (length (rev b))) with (length (x :: rev b)). rewrite Er2. apply drop_app.
    - intros Hle. destruct (max_in z) as [H0|Hin]; [lia|]. apply elem_of_list_lookup in Hin as [j Hj]. specialize (Hz _ _ Hj). destruct (Nat.eqb_spec j 0) as [Hj0|Hj0]; [lia|].
      apply (lcp_iff _ _ _ Hz (length w)) in Hle as (H1 & H2 & H3). rewrite drop_length in H2.
      apply (take_eq_lookup r (drop j r) (length w)) in H3; [|lia|rewrite drop_length; lia]. assert (take (length w) r = rev w) as Et by (rewrite Er; apply take_app_alt; rewrite rev_length; reflexivity).
      assert (Ed : drop j r = rev w ++ drop (length w) (drop j r)) by (rewrite <- Et, H3, take_drop; reflexivity).
      assert (Er2 : r = take j r ++ rev w ++ drop (length w) (drop j r)) by (rewrite <- Ed, take_drop; reflexivity).
      apply (f_equal (@rev T)) in Er2. unfold r in Er2 at 1. rewrite rev_involutive, !rev_app_distr, rev_involutive in Er2.
      assert (exists b, rev (take j r) = b ++ [x]) as [b Eb]. { unfold r. rewrite rev_app_distr. cbn. destruct j as [|j]; [lia|]. cbn. eauto. }
      rewrite Eb, !app_assoc in Er2. apply app_inj_tail in Er2 as [Er2 _]. eexists _, b. rewrite <- app_assoc in Er2. exact Er2.
  Qed.
  Lemma substring_snoc (p : list T) (x : T) (w : list T) : w <> [] -> substring w (p ++ [x]) <-> substring w p \/ exists u, p ++ [x] = u ++ w.
  Proof.
    intros Hw. split.
    - intros (a & b & E). destruct b as [|y b _] using rev_ind; [right; exists a; rewrite app_nil_r in E; exact E|]. left. rewrite !app_assoc in E. apply app_inj_tail in E as [E _]. exists a, b. rewrite <- app_assoc in E. exact E.
    - intros [(a & b & ->)|(u & E)]; [exists a, (b ++ [x]); rewrite <- !app_assoc; reflexivity|]. exists u, []. rewrite app_nil_r. exact E.
  Qed.
  Lemma distinct_ok s : exists k subs, distinct eqb s = Ok k /\ length subs = k /\ NoDup subs /\ forall w, w ∈ subs <-> w <> [] /\ substring w s.
  Proof.
    unfold distinct, range. rewrite Nat.sub_0_r.
    assert (L : forall m, m <= length s -> exists k subs, rfor (seq 0 m) (fun i total => z ← z_function eqb (rev (take (i + 1) s)); Ok (total + (i + 1 - foldr Nat.max 0 z))) 0 = Ok k /\ length subs = k /\ NoDup subs /\ forall w, w ∈ subs <-> w <> [] /\ substring w (take m s)).
    2:{ destruct (L (length s) ltac:(lia)) as (k & subs & H). rewrite firstn_all in H. eauto. }
    induction m as [|m IH]; intros Hm.
    - exists 0, []. split; [reflexivity|]. split; [reflexivity|]. split; [constructor|]. intros w. split; [intros H; inversion H|]. intros [Hw (a & b & E)]. cbn in E. symmetry in E. apply app_eq_nil in E as [_ E]. apply app_eq_nil in E as [E _]. contradiction.
    - destruct IH as (k & subs & Ek & Lk & Nk & Ik); [lia|]. rewrite seq_S, rfor_app, Ek. cbn [mbind res_bind rfor plus]. destruct (C16_z_function eqb Heq (rev (take (m + 1) s))) as (z & Ez & Hz). rewrite Ez. cbn [mbind res_bind].
      destruct (lookup_lt_is_Some_2 s m ltac:(lia)) as [x Hx]. assert (Et : take (m + 1) s = take m s ++ [x]) by (rewrite Nat.add_1_r; apply take_S_r; exact Hx). rewrite Et in Hz. set (p := take m s) in *. assert (Lp : length p = m) by (unfold p; rewrite take_length; lia).
      set (M := foldr Nat.max 0 z) in *. assert (M <= m) as HM.
      { destruct (max_in z) as [H|H]; [unfold M; lia|]. fold M in H. apply elem_of_list_lookup in H as [j Hj]. destruct Hz as [Hl Hz]. specialize (Hz _ _ Hj). destruct (Nat.eqb_spec j 0); [lia|]. pose proof (proj1 (lcp_iff _ _ _ Hz M) (le_n M)) as (_ & H & _). rewrite drop_length, rev_length, app_length in H. cbn in H. lia. }
      set (new := map (fun k => drop (m + 1 - k) (p ++ [x])) (seq (M + 1) (m + 1 - M))). exists (k + (m + 1 - M)), (subs ++ new). split; [reflexivity|]. split; [unfold new; rewrite app_length, map_length, seq_length; lia|].
      assert (Lpx : length (p ++ [x]) = m + 1) by (rewrite app_length; cbn; lia).
      assert (Hnew : forall w, w ∈ new <-> M < length w /\ exists u, p ++ [x] = u ++ w).
      { intros w. unfold new. rewrite elem_of_list_fmap. setoid_rewrite elem_of_seq. split.
        - intros (k0 & -> & H0). split; [rewrite drop_length; lia|]. exists (take (m + 1 - k0) (p ++ [x])). symmetry. apply take_drop.
        - intros (H1 & u & E). exists (length w). assert (length u + length w = m + 1) as Luw by (rewrite <- Lpx, E, app_length; lia). split; [|lia]. rewrite E. symmetry. apply drop_app_alt. lia. }
      assert (Hne : forall w, w ∈ new -> w <> []) by (intros w H ->; apply Hnew in H as [H _]; cbn in H; lia).
      split.
      + apply NoDup_app. split; [exact Nk|]. split.
        * intros w H1 H2. apply Ik in H1 as [Hw H1]. pose proof H2 as H3. apply Hnew in H2 as (H2 & u & E). apply (suffix_old p x z u w Hz E Hw) in H1. fold M in H1. lia.
        * unfold new. change (map ?f ?l) with (f <$> l). apply NoDup_fmap_2_strong; [|apply NoDup_seq]. intros a b Ha Hb E. apply elem_of_seq in Ha, Hb. apply (f_equal length) in E. rewrite !drop_length in E. lia.
      + intros w. replace (S m) with (m + 1) by lia. rewrite Et, elem_of_app, Ik. split.
        * intros [[Hw H]|H]; [split; [exact Hw|apply substring_snoc; auto]|]. pose proof (Hne w H) as Hw. split; [exact Hw|]. apply substring_snoc; [exact Hw|]. right. apply Hnew in H. apply H.
        * intros [Hw H]. apply (substring_snoc p x w Hw) in H as [H|[u E]]; [auto|]. destruct (decide (length w <= M)) as [Hle|Hgt]; [left; split; [exact Hw|]; apply (suffix_old p x z u w Hz E Hw); exact Hle|right; apply Hnew; split; [lia|eauto]].
  Qed.
End Palin.
