(** Correctness of kmp and z_function. *)
From Verif Require Import Prelude PrefixModel PrefixSpec.

Section Proof.
  Context {T : Type} (eqb : T -> T -> bool) (Heq : forall a b, eqb a b = true <-> a = b).
  Variable s : list T.
  Let n := length s.

  (** Borders of the prefix of length i, letter by letter. *)
  Definition bd (i k : nat) : Prop := k < i /\ forall t, t < k -> s !! t = s !! (i - k + t).

  Lemma border_bd i k : i <= n -> border (take i s) k <-> bd i k.
  Proof.
    intros Hi. unfold border, bd. rewrite take_length, Nat.min_l by exact Hi. split.
    - intros [H1 H2]. split; [exact H1|]. intros t Ht.
      apply (f_equal (lookup t)) in H2. rewrite lookup_take, lookup_take, lookup_drop, lookup_take in H2 by lia.
      exact H2.
    - intros [H1 H2]. split; [exact H1|]. apply list_eq. intros t.
      destruct (decide (t < k)).
      + rewrite lookup_take, lookup_take, lookup_drop, lookup_take by lia. apply H2. lia.
      + rewrite lookup_ge_None_2 by (rewrite take_length, take_length; lia).
        rewrite lookup_ge_None_2; [reflexivity|]. rewrite drop_length, take_length. lia.
  Qed.

  Definition longest_bd i k : Prop := bd i k /\ forall k', bd i k' -> k' <= k.

  Lemma bd_0 i : 0 < i -> bd i 0.
  Proof. intros. split; [lia|]. intros. lia. Qed.
  Lemma bd_shrink i k : 0 < i -> bd (i + 1) (k + 1) -> bd i k /\ s !! k = s !! i.
  Proof.
    intros Hi [H1 H2]. split.
    - split; [lia|]. intros t Ht. rewrite H2 by lia. f_equal. lia.
    - rewrite H2 by lia. f_equal. lia.
  Qed.
  Lemma bd_grow i k : bd i k -> s !! k = s !! i -> bd (i + 1) (k + 1).
  Proof.
    intros [H1 H2] E. split; [lia|]. intros t Ht. destruct (decide (t = k)) as [->|].
    - rewrite E. f_equal. lia.
    - rewrite H2 by lia. f_equal. lia.
  Qed.
  Lemma bd_trans i j k : bd i j -> bd j k -> bd i k.
  Proof.
    intros [H1 H2] [H3 H4]. split; [lia|]. intros t Ht. rewrite H4, H2 by lia. f_equal. lia.
  Qed.
  Lemma bd_nest i j k : bd i j -> bd i k -> k < j -> bd j k.
  Proof.
    intros [H1 H2] [H3 H4] Hk. split; [exact Hk|]. intros t Ht. rewrite H4, (H2 (j - k + t)) by lia. f_equal. lia.
  Qed.

  Lemma kmp_back_ok pi i j :
    0 < i < n -> length pi = n -> (forall t, t < i -> exists k, pi !! t = Some k /\ longest_bd (t + 1) k) ->
    longest_bd i j ->
    exists j', rloop (length s + 1) (kmp_back eqb s pi i) j = Ok j' /\ bd i j' /\
      (j' = 0 \/ s !! i = s !! j') /\ (forall k, bd (i + 1) (k + 1) -> k <= j').
  Proof.
    intros Hi Hl Hpi [Hj Hmax].
    destruct (rloop_inv_idx
      (fun m j => m = j /\ bd i j /\ (forall k, bd (i + 1) (k + 1) -> k <= j))
      (fun j' => bd i j' /\ (j' = 0 \/ s !! i = s !! j') /\ (forall k, bd (i + 1) (k + 1) -> k <= j'))
      (kmp_back eqb s pi i)) with (fuel := length s + 1) (m := j) (s := j) as (j' & E & H).
    - clear j Hj Hmax. intros m j (-> & Hj & Hmax). unfold kmp_back.
      destruct (Nat.eqb_spec j 0) as [->|Hj0].
      { eexists. split; [reflexivity|]. cbn. auto. }
      assert (j < i) by apply Hj.
      destruct (vget_lt s i) as (a & Ea & La); [fold n; lia|].
      destruct (vget_lt s j) as (b & Eb & Lb); [fold n; lia|].
      rewrite Ea. cbn [mbind res_bind]. rewrite Eb. cbn [mbind res_bind].
      destruct (eqb a b) eqn:Eab; cbn [negb].
      + eexists. split; [reflexivity|]. cbn. split; [exact Hj|]. split; [|exact Hmax].
        right. apply Heq in Eab. congruence.
      + destruct (Hpi (j - 1)) as (k & Lk & Hk); [lia|].
        rewrite (vget_ok _ _ _ Lk). cbn [mbind res_bind]. replace (j - 1 + 1) with j in Hk by lia.
        eexists. split; [reflexivity|]. cbn. exists k. destruct Hk as [Hk Hkm].
        split; [apply Hk|]. split; [reflexivity|]. split; [eapply bd_trans; eassumption|].
        intros k' Hk'. assert (k' <= j) by (apply Hmax; exact Hk').
        apply bd_shrink in Hk' as [Hk' E]; [|lia].
        destruct (decide (k' = j)) as [->|].
        * exfalso. assert (a = b) by congruence. apply Heq in H1. congruence.
        * apply Hkm. eapply bd_nest; [exact Hj|exact Hk'|lia].
    - split; [reflexivity|]. split; [exact Hj|]. intros k Hk. apply Hmax. apply bd_shrink in Hk as [Hk _]; [exact Hk|lia].
    - destruct Hj. fold n. lia.
    - eauto.
  Qed.

  Lemma kmp_ok : exists pi, kmp eqb s = Ok pi /\ prefix_function s pi.
  Proof.
    unfold kmp. fold n. destruct (decide (n = 0)) as [Hn|Hn].
    { rewrite Hn. cbn. eexists. split; [reflexivity|]. split; [symmetry; exact Hn|]. intros i k H.
      rewrite lookup_nil in H. discriminate. }
    unfold range.
    destruct (rfor_range_inv (fun i pi => length pi = n /\
        forall t, t < i -> exists k, pi !! t = Some k /\ longest_bd (t + 1) k) 1 n (kmp_body eqb s) (replicate n 0))
      as (pi & E & Hl & H).
    - lia.
    - rewrite replicate_length. split; [reflexivity|]. intros t Ht. assert (t = 0) as -> by lia.
      exists 0. split; [apply lookup_replicate; split; [reflexivity|lia]|].
      split; [apply bd_0; lia|]. intros k [Hk _]. lia.
    - intros i pi Hi [Hl H]. unfold kmp_body.
      destruct (H (i - 1)) as (j & Lj & Hj); [lia|].
      rewrite (vget_ok _ _ _ Lj). cbn [mbind res_bind]. replace (i - 1 + 1) with i in Hj by lia.
      destruct (kmp_back_ok pi i j) as (j' & Ej & Hb & Hstop & Hmax); [lia|exact Hl|exact H|exact Hj|].
      rewrite Ej. cbn [mbind res_bind]. assert (j' < i) by apply Hb.
      destruct (vget_lt s i) as (a & Ea & La); [fold n; lia|].
      destruct (vget_lt s j') as (b & Eb & Lb); [fold n; lia|].
      rewrite Ea. cbn [mbind res_bind]. rewrite Eb. cbn [mbind res_bind].
      rewrite vset_ok by lia. eexists. split; [reflexivity|]. rewrite insert_length. split; [exact Hl|].
      intros t Ht. destruct (decide (t = i)) as [->|Hti].
      2:{ rewrite list_lookup_insert_ne by lia. apply H. lia. }
      rewrite list_lookup_insert by lia. eexists. split; [reflexivity|].
      destruct (eqb a b) eqn:Eab.
      + apply Heq in Eab. split.
        * apply bd_grow; [exact Hb|]. congruence.
        * intros [|k'] Hk'; [lia|]. replace (S k') with (k' + 1) in * by lia. apply Hmax in Hk'. lia.
      + assert (s !! i <> s !! j') as Hne.
        { intros E. assert (a = b) by congruence. apply Heq in H1. congruence. }
        destruct Hstop as [->|]; [|congruence]. split; [apply bd_0; lia|].
        intros [|k'] Hk'; [lia|]. replace (S k') with (k' + 1) in * by lia.
        assert (k' <= 0) by (apply Hmax; exact Hk'). assert (k' = 0) as -> by lia.
        apply bd_shrink in Hk' as [_ E]; [|lia]. congruence.
    - exists pi. split; [exact E|]. split; [exact Hl|].
      intros i k Hk. assert (i < n) by (apply lookup_lt_Some in Hk; lia).
      destruct (H i) as (k1 & E1 & H1 & H2); [exact H0|].
      assert (k1 = k) as -> by congruence. split; [apply border_bd; [lia|exact H1]|].
      intros k' Hk'. apply H2. apply border_bd; [lia|exact Hk'].
  Qed.

  (** ** z_function *)
  Definition agree (i k : nat) : Prop := i + k <= n /\ forall t, t < k -> s !! t = s !! (i + t).
  Definition zval (i k : nat) : Prop := agree i k /\ (i + k < n -> s !! k <> s !! (i + k)).

  Lemma zval_lcp i k : 0 < i -> zval i k -> longest_common_prefix s (drop i s) k.
  Proof.
    intros Hi [[H1 H2] H3]. split.
    - exists (take k s), (drop k s), (drop k (drop i s)). rewrite take_drop. split; [reflexivity|].
      split; [|rewrite take_length; fold n; lia].
      assert (take k s = take k (drop i s)) as E.
      { apply list_eq. intros t. destruct (decide (t < k)).
        - rewrite !lookup_take, lookup_drop by lia. apply H2. lia.
        - rewrite !lookup_take_ge by lia. reflexivity. }
      rewrite E, take_drop. reflexivity.
    - intros p a' b' Ea Eb. destruct (decide (length p <= k)) as [|Hgt]; [assumption|exfalso].
      assert (i + length p <= n).
      { apply (f_equal length) in Eb. rewrite drop_length, app_length in Eb. fold n in Eb. lia. }
      apply H3; [lia|]. rewrite <- lookup_drop, Eb. rewrite Ea at 1. rewrite !lookup_app_l by lia. reflexivity.
  Qed.

  Lemma z_extend_ok i z k : 0 < i < n -> length z = n -> z !! i = Some k -> agree i k ->
    exists k', rloop (length s + 1) (z_extend eqb s i) z = Ok (<[i := k']> z) /\ zval i k'.
  Proof.
    intros Hi Hl Lk Hk.
    destruct (rloop_inv_idx
      (fun m z' => exists k, z' = <[i := k]> z /\ agree i k /\ m = n - k)
      (fun z' => exists k, z' = <[i := k]> z /\ zval i k)
      (z_extend eqb s i)) with (fuel := length s + 1) (m := n - k) (s := z) as (z' & E & k' & -> & H).
    - clear k Lk Hk. intros m z' (k & -> & Hk & ->). unfold z_extend.
      assert (Lz : <[i := k]> z !! i = Some k) by (apply list_lookup_insert; lia).
      rewrite (vget_ok _ _ _ Lz). cbn [mbind res_bind]. fold n.
      destruct (Nat.ltb_spec (i + k) n) as [Hlt|Hge].
      + destruct (vget_lt s k) as (a & Ea & La); [fold n; lia|].
        destruct (vget_lt s (i + k)) as (b & Eb & Lb); [fold n; lia|].
        rewrite Ea. cbn [mbind res_bind]. rewrite Eb. cbn [mbind res_bind].
        destruct (eqb a b) eqn:Eab.
        * apply Heq in Eab. rewrite vset_ok by (rewrite insert_length; lia). cbn [mbind res_bind].
          eexists. split; [reflexivity|]. cbn. exists (n - (k + 1)). split; [lia|].
          exists (k + 1). rewrite list_insert_insert. split; [reflexivity|]. split; [|reflexivity].
          destruct Hk as [H1 H2]. split; [lia|]. intros t Ht. destruct (decide (t = k)) as [->|]; [congruence|].
          apply H2. lia.
        * eexists. split; [reflexivity|]. cbn. exists k. split; [reflexivity|]. split; [exact Hk|].
          intros _ E. assert (a = b) by congruence. apply Heq in H. congruence.
      + eexists. split; [reflexivity|]. cbn. exists k. split; [reflexivity|]. split; [exact Hk|]. lia.
    - exists k. rewrite list_insert_id by exact Lk. auto.
    - fold n. lia.
    - eauto.
  Qed.

  Lemma z_ok : exists z, z_function eqb s = Ok z /\ z_array s z.
  Proof.
    unfold z_function. fold n. destruct (decide (n = 0)) as [Hn|Hn].
    { rewrite Hn. cbn. eexists. split; [reflexivity|]. split; [symmetry; exact Hn|]. intros i k H.
      rewrite lookup_nil in H. discriminate. }
    unfold range.
    destruct (rfor_range_inv (fun i '(z, l, r) => length z = n /\ z !! 0 = Some 0 /\
        (forall t, 0 < t < i -> exists k, z !! t = Some k /\ zval t k) /\
        (forall t, i <= t < n -> z !! t = Some 0) /\
        l < i /\ (l = 0 -> r = 0) /\ r < n /\ (forall t, l + t <= r -> s !! t = s !! (l + t)))
        1 n (z_body eqb s) (replicate n 0, 0, 0))
      as ([[z l] r] & E & Hl & H0 & H & _).
    - lia.
    - rewrite replicate_length. split; [reflexivity|].
      split; [apply lookup_replicate; split; [reflexivity|lia]|].
      split; [intros; lia|]. split; [intros t Ht; apply lookup_replicate; split; [reflexivity|lia]|].
      split; [lia|]. split; [reflexivity|]. split; [lia|]. intros t Ht. reflexivity.
    - intros i [[z l] r] Hi (Hl & H0 & H & Hz & Hli & Hl0 & Hr & Hlr). unfold z_body.
      assert (exists k, (if i <=? r then x ← vget z (i - l); vset z i (Nat.min (r - i + 1) x) else Ok z)
              = Ok (<[i := k]> z) /\ agree i k) as (k & -> & Hk).
      { destruct (Nat.leb_spec i r) as [Hle|Hgt].
        - destruct (H (i - l)) as (x & Lx & Hx); [lia|].
          rewrite (vget_ok _ _ _ Lx). cbn [mbind res_bind]. rewrite vset_ok by lia. eexists. split; [reflexivity|].
          destruct Hx as [[Hx1 Hx2] _]. split; [lia|]. intros t Ht. rewrite Hx2 by lia.
          rewrite Hlr by lia. f_equal. lia.
        - exists 0. rewrite list_insert_id by (apply Hz; lia). split; [reflexivity|]. split; [lia|]. intros; lia. }
      cbn [mbind res_bind].
      destruct (z_extend_ok i (<[i := k]> z) k) as (k' & -> & Hk');
        [lia|rewrite insert_length; exact Hl|apply list_lookup_insert; lia|exact Hk|].
      rewrite list_insert_insert. cbn [mbind res_bind].
      assert (Lz : <[i := k']> z !! i = Some k') by (apply list_lookup_insert; lia).
      rewrite (vget_ok _ _ _ Lz). cbn [mbind res_bind].
      assert (Hcommon : length (<[i := k']> z) = n /\ <[i := k']> z !! 0 = Some 0 /\
        (forall t, 0 < t < i + 1 -> exists k, <[i := k']> z !! t = Some k /\ zval t k) /\
        (forall t, i + 1 <= t < n -> <[i := k']> z !! t = Some 0)).
      { rewrite insert_length. split; [exact Hl|]. split; [rewrite list_lookup_insert_ne by lia; exact H0|]. split.
        - intros t Ht. destruct (decide (t = i)) as [->|]; [eauto|].
          rewrite list_lookup_insert_ne by lia. apply H. lia.
        - intros t Ht. rewrite list_lookup_insert_ne by lia. apply Hz. lia. }
      destruct Hcommon as (C1 & C2 & C3 & C4).
      destruct Hk' as [[Hk1 Hk2] Hk3].
      destruct (Nat.ltb_spec r (i + k' - 1)) as [Hlt|Hge]; (eexists; split; [reflexivity|]).
      + split; [exact C1|]. split; [exact C2|]. split; [exact C3|]. split; [exact C4|].
        split; [lia|]. split; [lia|]. split; [lia|]. intros t Ht. apply Hk2. lia.
      + split; [exact C1|]. split; [exact C2|]. split; [exact C3|]. split; [exact C4|].
        split; [lia|]. split; [exact Hl0|]. split; [exact Hr|exact Hlr].
    - rewrite E. cbn. exists z. split; [reflexivity|]. split; [exact Hl|].
      intros i k Hk. assert (i < n) by (apply lookup_lt_Some in Hk; lia).
      destruct (Nat.eqb_spec i 0) as [->|Hi]; [congruence|].
      destruct (H i) as (k1 & E1 & Hz1); [lia|]. assert (k1 = k) as -> by congruence.
      apply zval_lcp; [lia|exact Hz1].
  Qed.
End Proof.
