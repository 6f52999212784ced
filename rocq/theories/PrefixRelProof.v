(** kmp and z_function for an equality that is symmetric and transitive only; number of comparisons. *)
From Verif Require Import Prelude PrefixModel PrefixCountModel PrefixRelSpec.

(** ** The counting models compute what the plain ones do *)
Section Erase.
  Context {T : Type} (eqb : T -> T -> bool).

  (** A counting result erases to a plain one. *)
  Definition erases {A B} (f : A -> B) (x : res A) (y : res B) : Prop := fmap f x = y.

  Lemma rloop_erase {S S' R R'} (f : S -> S') (g : R -> R') (st : S -> res (S + R)) (st' : S' -> res (S' + R')) :
    (forall s, st' (f s) = fmap (fun o => match o with inl s => inl (f s) | inr r => inr (g r) end) (st s)) ->
    forall fuel s, rloop fuel st' (f s) = fmap g (rloop fuel st s).
  Proof.
    intros H fuel. induction fuel as [|fuel IH]; intros s; [reflexivity|]. cbn [rloop]. rewrite H.
    destruct (st s) as [[s'|r]| |]; cbn; try reflexivity. apply IH.
  Qed.
  Lemma rfor_erase {A S S'} (f : S -> S') (b : A -> S -> res S) (b' : A -> S' -> res S') :
    (forall x s, b' x (f s) = fmap f (b x s)) -> forall l s, rfor l b' (f s) = fmap f (rfor l b s).
  Proof.
    intros H l. induction l as [|x l IH]; intros s; [reflexivity|]. cbn [rfor]. rewrite H.
    destruct (b x s) as [s'| |]; cbn; try reflexivity. apply IH.
  Qed.

  Lemma kmp_erase s : kmp eqb s = fmap fst (kmp_count eqb s).
  Proof.
    unfold kmp, kmp_count. apply (rfor_erase fst _ _) with (s := (replicate (length s) 0, 0)). intros i [pi c]. cbn [fst].
    unfold kmp_body, kmp_body_count. destruct (vget pi (i - 1)) as [j| |]; cbn [mbind res_bind]; try reflexivity.
    rewrite (rloop_erase fst fst (kmp_back_count eqb s pi i) (kmp_back eqb s pi i)) with (s := (j, c)).
    - destruct (rloop _ _ (j, c)) as [[j' c']| |]; cbn; try reflexivity.
      destruct (vget s i) as [a| |]; cbn; try reflexivity. destruct (vget s j') as [b| |]; cbn; try reflexivity.
      destruct (vset pi i _); reflexivity.
    - intros [j' c']. unfold kmp_back, kmp_back_count. cbn [fst]. destruct (j' =? 0); [reflexivity|].
      destruct (vget s i) as [a| |]; cbn; try reflexivity. destruct (vget s j') as [b| |]; cbn; try reflexivity.
      destruct (negb (eqb a b)); [|reflexivity]. destruct (vget pi (j' - 1)); reflexivity.
  Qed.

  Lemma z_erase s : z_function eqb s = fmap fst (z_function_count eqb s).
  Proof.
    unfold z_function, z_function_count.
    rewrite (rfor_erase (fun st => let '(z, l, r, c) := st in (z, l, r)) (z_body_count eqb s) (z_body eqb s)) with (s := (replicate (length s) 0, 0, 0, 0)).
    - destruct (rfor _ _ _) as [[[[z l] r] c]| |]; reflexivity.
    - intros i [[[z l] r] c]. unfold z_body, z_body_count.
      destruct (if i <=? r then _ else _) as [z1| |]; cbn [mbind res_bind]; try reflexivity.
      rewrite (rloop_erase fst fst (z_extend_count eqb s i) (z_extend eqb s i)) with (s := (z1, c)).
      + destruct (rloop _ _ (z1, c)) as [[z2 c']| |]; cbn; try reflexivity. destruct (vget z2 i) as [zi| |]; cbn; try reflexivity.
        destruct (r <? i + zi - 1); reflexivity.
      + intros [z' c']. unfold z_extend, z_extend_count. cbn [fst]. destruct (vget z' i) as [zi| |]; cbn; try reflexivity.
        destruct (i + zi <? length s); [|reflexivity].
        destruct (vget s zi) as [a| |]; cbn; try reflexivity. destruct (vget s (i + zi)) as [b| |]; cbn; try reflexivity.
        destruct (eqb a b); [|reflexivity]. destruct (vset z' i (zi + 1)); reflexivity.
  Qed.
End Erase.

Section Any.
  Context {T : Type} (eqb : T -> T -> bool) (s : list T).
  Let n := length s.

  (** Any equality: kmp returns, and every step gains or loses what it pays for. *)
  Lemma kmp_any : exists pi c, kmp_count eqb s = Ok (pi, c) /\ length pi = n /\ (forall i k, pi !! i = Some k -> k <= i) /\ c <= 3 * (n - 1).
  Proof.
    unfold kmp_count. fold n. destruct (decide (n = 0)) as [Hn|Hn].
    { rewrite Hn. exists [], 0. split; [reflexivity|]. split; [reflexivity|]. split; [|lia]. intros i k H. rewrite lookup_nil in H. discriminate. }
    unfold range.
    destruct (rfor_range_inv (fun i '(pi, c) => length pi = n /\ (forall t k, pi !! t = Some k -> k <= t) /\
        exists j, pi !! (i - 1) = Some j /\ c + j <= 3 * (i - 1)) 1 n (kmp_body_count eqb s) (replicate n 0, 0)) as ([pi c] & E & Hl & Hb & j & _ & Hc).
    - lia.
    - rewrite replicate_length. split; [reflexivity|]. split.
      + intros t k Ht. apply lookup_replicate in Ht as [-> _]. lia.
      + exists 0. split; [apply lookup_replicate; split; [reflexivity|lia]|lia].
    - intros i [pi c] Hi (Hl & Hb & j & Lj & Hc). unfold kmp_body_count. rewrite (vget_ok _ _ _ Lj). cbn [mbind res_bind].
      pose proof (Hb _ _ Lj) as Hji.
      destruct (rloop_inv_idx (fun m '(j', c') => m = j' /\ c' + j' <= c + j /\ j' < i)
        (fun '(j', c') => c' + j' <= c + j + 1 /\ j' < i) (kmp_back_count eqb s pi i)) with (fuel := length s + 1) (m := j) (s := (j, c)) as ([j' c'] & Er & Hj' & Hji').
      + intros m [j' c'] (-> & H1 & H2). unfold kmp_back_count. destruct (Nat.eqb_spec j' 0) as [->|H0].
        { eexists. split; [reflexivity|]. cbn. lia. }
        destruct (vget_lt s i) as (a & -> & _); [fold n; lia|]. cbn [mbind res_bind].
        destruct (vget_lt s j') as (b & -> & _); [fold n; lia|]. cbn [mbind res_bind].
        destruct (negb (eqb a b)); [|eexists; split; [reflexivity|]; cbn; lia].
        destruct (vget_lt pi (j' - 1)) as (k & -> & Lk); [lia|]. cbn [mbind res_bind]. eexists. split; [reflexivity|]. cbn.
        pose proof (Hb _ _ Lk). exists k. lia.
      + lia.
      + fold n. lia.
      + rewrite Er. cbn [mbind res_bind]. destruct (vget_lt s i) as (a & -> & _); [fold n; lia|]. cbn [mbind res_bind].
        destruct (vget_lt s j') as (b & -> & _); [fold n; lia|]. cbn [mbind res_bind].
        rewrite vset_ok by lia. cbn [mbind res_bind]. eexists. split; [reflexivity|]. cbv beta iota. rewrite insert_length. split; [exact Hl|].
        assert ((if eqb a b then j' + 1 else j') <= j' + 1) as Hnew by (destruct (eqb a b); lia). split.
        * intros t k Ht. destruct (decide (t = i)) as [->|Hti].
          -- rewrite list_lookup_insert in Ht by lia. injection Ht as <-. lia.
          -- rewrite list_lookup_insert_ne in Ht by lia. eapply Hb; eauto.
        * replace (i + 1 - 1) with i by lia. rewrite list_lookup_insert by lia. eexists. split; [reflexivity|]. lia.
    - exists pi, c. split; [exact E|]. split; [exact Hl|]. split; [exact Hb|]. lia.
  Qed.

  (** Any equality: z_function returns. *)
  Lemma z_any : exists z c, z_function_count eqb s = Ok (z, c) /\ length z = n /\ forall i k, z !! i = Some k -> i + k <= n.
  Proof.
    unfold z_function_count. fold n. destruct (decide (n = 0)) as [Hn|Hn].
    { rewrite Hn. exists [], 0. split; [reflexivity|]. split; [reflexivity|]. intros i k H. rewrite lookup_nil in H. discriminate. }
    unfold range.
    destruct (rfor_range_inv (fun i '(z, l, r, c) => length z = n /\ (forall t k, z !! t = Some k -> t + k <= n) /\ l < i /\ r < n)
        1 n (z_body_count eqb s) (replicate n 0, 0, 0, 0)) as ([[[z l] r] c] & E & Hl & Hb & _).
    - lia.
    - rewrite replicate_length. split; [reflexivity|]. split; [|lia].
      intros t k Ht. apply lookup_replicate in Ht as [-> ?]. lia.
    - intros i [[[z l] r] c] Hi (Hl & Hb & Hli & Hr). unfold z_body_count.
      assert (exists z1, (if i <=? r then x ← vget z (i - l); vset z i (Nat.min (r - i + 1) x) else Ok z) = Ok z1 /\
        length z1 = n /\ forall t k, z1 !! t = Some k -> t + k <= n) as (z1 & -> & Hl1 & Hb1).
      { destruct (Nat.leb_spec i r) as [Hle|Hgt]; [|eauto].
        destruct (vget_lt z (i - l)) as (x & -> & Lx); [lia|]. cbn [mbind res_bind]. rewrite vset_ok by lia. eexists. split; [reflexivity|].
        rewrite insert_length. split; [exact Hl|]. intros t k Ht. destruct (decide (t = i)) as [->|Hti].
        - rewrite list_lookup_insert in Ht by lia. injection Ht as <-. lia.
        - rewrite list_lookup_insert_ne in Ht by lia. eauto. }
      cbn [mbind res_bind].
      destruct (rloop_inv_idx (fun m '(z', c') => (exists k, z' !! i = Some k /\ m = n - k) /\ length z' = n /\ forall t k, z' !! t = Some k -> t + k <= n)
        (fun '(z', c') => length z' = n /\ forall t k, z' !! t = Some k -> t + k <= n) (z_extend_count eqb s i))
        with (fuel := length s + 1) (m := n - default 0 (z1 !! i)) (s := (z1, c)) as ([z2 c2] & Er & Hl2 & Hb2).
      + intros m [z' c'] ((k & Lk & ->) & Hl' & Hb'). unfold z_extend_count. rewrite (vget_ok _ _ _ Lk). cbn [mbind res_bind]. fold n.
        destruct (Nat.ltb_spec (i + k) n) as [Hlt|Hge]; [|eexists; split; [reflexivity|]; cbn; auto].
        destruct (vget_lt s k) as (a & -> & _); [fold n; lia|]. cbn [mbind res_bind].
        destruct (vget_lt s (i + k)) as (b & -> & _); [fold n; lia|]. cbn [mbind res_bind].
        destruct (eqb a b); [|eexists; split; [reflexivity|]; cbn; auto].
        rewrite vset_ok by lia. cbn [mbind res_bind]. eexists. split; [reflexivity|]. cbn. exists (n - (k + 1)). split; [lia|].
        rewrite insert_length. split; [|split; [exact Hl'|]].
        * exists (k + 1). split; [apply list_lookup_insert; lia|reflexivity].
        * intros t k' Ht. destruct (decide (t = i)) as [->|Hti].
          -- rewrite list_lookup_insert in Ht by lia. injection Ht as <-. lia.
          -- rewrite list_lookup_insert_ne in Ht by lia. eauto.
      + destruct (lookup_lt_is_Some_2 z1 i) as [k Lk]; [lia|]. split; [exists k; rewrite Lk; auto|]. auto.
      + fold n. lia.
      + rewrite Er. cbn [mbind res_bind]. destruct (vget_lt z2 i) as (k & -> & Lk); [lia|]. cbn [mbind res_bind].
        pose proof (Hb2 _ _ Lk). destruct (r <? i + k - 1); (eexists; split; [reflexivity|]; cbn; split; [exact Hl2|]; split; [exact Hb2|lia]).
    - rewrite E. cbn [mbind res_bind]. exists z, c. auto.
  Qed.
End Any.

Section Per.
  Context {T : Type} (eqb : T -> T -> bool).
  Context (Hsym : forall a b, eqb a b = true -> eqb b a = true) (Htrans : forall a b c, eqb a b = true -> eqb b c = true -> eqb a c = true).
  Variable s : list T.
  Let n := length s.
  Local Notation same := (same eqb s).
  Local Notation repeats := (repeats eqb s).

  Lemma same_sym i j : same i j -> same j i.
  Proof. intros (a & b & Ea & Eb & E). exists b, a. auto. Qed.
  Lemma same_trans i j k : same i j -> same j k -> same i k.
  Proof. intros (a & b & Ea & Eb & E) (b' & c & Eb' & Ec & E'). rewrite Eb in Eb'. injection Eb' as <-. exists a, c. eauto. Qed.
  Lemma same_to i j k l : same i j -> j = l -> k = i -> same k l.
  Proof. intros H -> ->. exact H. Qed.
  Lemma same_lt i j : same i j -> i < n /\ j < n.
  Proof. intros (a & b & Ea & Eb & _). apply lookup_lt_Some in Ea, Eb. auto. Qed.
  Lemma same_eqb i j a b : s !! i = Some a -> s !! j = Some b -> same i j <-> eqb a b = true.
  Proof.
    intros Ea Eb. split; [|intros E; exists a, b; auto]. intros (a' & b' & Ea' & Eb' & E). congruence.
  Qed.

  (** The first k elements are the last k of the first i. *)
  Definition rbd (i k : nat) : Prop := k < i /\ forall t, t < k -> same t (i - k + t).
  Definition longest_rbd i k : Prop := rbd i k /\ forall k', rbd i k' -> k' <= k.

  Lemma rbd_0 i : 0 < i -> rbd i 0.
  Proof. intros. split; [lia|]. intros. lia. Qed.
  Lemma rbd_shrink i k : 0 < i -> rbd (i + 1) (k + 1) -> rbd i k /\ same k i.
  Proof.
    intros Hi [H1 H2]. split.
    - split; [lia|]. intros t Ht. apply (same_to _ _ _ _ (H2 t ltac:(lia))); lia.
    - apply (same_to _ _ _ _ (H2 k ltac:(lia))); lia.
  Qed.
  Lemma rbd_grow i k : rbd i k -> same k i -> rbd (i + 1) (k + 1).
  Proof.
    intros [H1 H2] E. split; [lia|]. intros t Ht. destruct (decide (t = k)) as [->|].
    - apply (same_to _ _ _ _ E); lia.
    - apply (same_to _ _ _ _ (H2 t ltac:(lia))); lia.
  Qed.
  Lemma rbd_trans i j k : rbd i j -> rbd j k -> rbd i k.
  Proof.
    intros [H1 H2] [H3 H4]. split; [lia|]. intros t Ht. eapply same_trans; [apply H4; lia|].
    apply (same_to _ _ _ _ (H2 (j - k + t) ltac:(lia))); lia.
  Qed.
  Lemma rbd_nest i j k : rbd i j -> rbd i k -> k < j -> rbd j k.
  Proof.
    intros [H1 H2] [H3 H4] Hk. split; [exact Hk|]. intros t Ht. eapply same_trans; [apply H4; lia|].
    apply same_sym. apply (same_to _ _ _ _ (H2 (j - k + t) ltac:(lia))); lia.
  Qed.

  Lemma kmp_back_rel pi i j :
    0 < i < n -> length pi = n -> (forall t, t < i -> exists k, pi !! t = Some k /\ longest_rbd (t + 1) k) ->
    longest_rbd i j ->
    exists j', rloop (length s + 1) (kmp_back eqb s pi i) j = Ok j' /\ rbd i j' /\
      (j' = 0 \/ same j' i) /\ (forall k, rbd (i + 1) (k + 1) -> k <= j').
  Proof.
    intros Hi Hl Hpi [Hj Hmax].
    destruct (rloop_inv_idx
      (fun m j => m = j /\ rbd i j /\ (forall k, rbd (i + 1) (k + 1) -> k <= j))
      (fun j' => rbd i j' /\ (j' = 0 \/ same j' i) /\ (forall k, rbd (i + 1) (k + 1) -> k <= j'))
      (kmp_back eqb s pi i)) with (fuel := length s + 1) (m := j) (s := j) as (j' & E & H).
    - clear j Hj Hmax. intros m j (-> & Hj & Hmax). unfold kmp_back.
      destruct (Nat.eqb_spec j 0) as [->|Hj0].
      { eexists. split; [reflexivity|]. cbn. auto. }
      assert (j < i) by apply Hj.
      destruct (vget_lt s i) as (a & Ea & La); [fold n; lia|].
      destruct (vget_lt s j) as (b & Eb & Lb); [fold n; lia|].
      rewrite Ea. cbn [mbind res_bind]. rewrite Eb. cbn [mbind res_bind].
      destruct (eqb a b) eqn:Eab; cbn [negb].
      + eexists. split; [reflexivity|]. cbn. split; [exact Hj|]. split; [|exact Hmax].
        right. exists b, a. auto.
      + destruct (Hpi (j - 1)) as (k & Lk & Hk); [lia|].
        rewrite (vget_ok _ _ _ Lk). cbn [mbind res_bind]. replace (j - 1 + 1) with j in Hk by lia.
        eexists. split; [reflexivity|]. cbn. exists k. destruct Hk as [Hk Hkm].
        split; [apply Hk|]. split; [reflexivity|]. split; [eapply rbd_trans; eassumption|].
        intros k' Hk'. assert (k' <= j) by (apply Hmax; exact Hk').
        apply rbd_shrink in Hk' as [Hk' E]; [|lia].
        destruct (decide (k' = j)) as [->|].
        * exfalso. apply (same_eqb _ _ _ _ Lb La) in E. apply Hsym in E. congruence.
        * apply Hkm. eapply rbd_nest; [exact Hj|exact Hk'|lia].
    - split; [reflexivity|]. split; [exact Hj|]. intros k Hk. apply Hmax. apply rbd_shrink in Hk as [Hk _]; [exact Hk|lia].
    - destruct Hj. fold n. lia.
    - eauto.
  Qed.

  Lemma kmp_rel : exists pi, kmp eqb s = Ok pi /\ rel_prefix_function eqb s pi.
  Proof.
    unfold kmp. fold n. destruct (decide (n = 0)) as [Hn|Hn].
    { rewrite Hn. cbn. eexists. split; [reflexivity|]. split; [symmetry; exact Hn|]. intros i k H.
      rewrite lookup_nil in H. discriminate. }
    unfold range.
    destruct (rfor_range_inv (fun i pi => length pi = n /\
        forall t, t < i -> exists k, pi !! t = Some k /\ longest_rbd (t + 1) k) 1 n (kmp_body eqb s) (replicate n 0))
      as (pi & E & Hl & H).
    - lia.
    - rewrite replicate_length. split; [reflexivity|]. intros t Ht. assert (t = 0) as -> by lia.
      exists 0. split; [apply lookup_replicate; split; [reflexivity|lia]|].
      split; [apply rbd_0; lia|]. intros k [Hk _]. lia.
    - intros i pi Hi [Hl H]. unfold kmp_body.
      destruct (H (i - 1)) as (j & Lj & Hj); [lia|].
      rewrite (vget_ok _ _ _ Lj). cbn [mbind res_bind]. replace (i - 1 + 1) with i in Hj by lia.
      destruct (kmp_back_rel pi i j) as (j' & Ej & Hb & Hstop & Hmax); [lia|exact Hl|exact H|exact Hj|].
      rewrite Ej. cbn [mbind res_bind]. assert (j' < i) by apply Hb.
      destruct (vget_lt s i) as (a & Ea & La); [fold n; lia|].
      destruct (vget_lt s j') as (b & Eb & Lb); [fold n; lia|].
      rewrite Ea. cbn [mbind res_bind]. rewrite Eb. cbn [mbind res_bind].
      rewrite vset_ok by lia. eexists. split; [reflexivity|]. rewrite insert_length. split; [exact Hl|].
      intros t Ht. destruct (decide (t = i)) as [->|Hti].
      2:{ rewrite list_lookup_insert_ne by lia. apply H. lia. }
      rewrite list_lookup_insert by lia. eexists. split; [reflexivity|].
      destruct (eqb a b) eqn:Eab.
      + split.
        * apply rbd_grow; [exact Hb|]. exists b, a. auto.
        * intros [|k'] Hk'; [lia|]. replace (S k') with (k' + 1) in * by lia. apply Hmax in Hk'. lia.
      + assert (~ same j' i) as Hne.
        { intros Es. apply (same_eqb _ _ _ _ Lb La) in Es. apply Hsym in Es. congruence. }
        destruct Hstop as [->|]; [|contradiction]. split; [apply rbd_0; lia|].
        intros [|k'] Hk'; [lia|]. replace (S k') with (k' + 1) in * by lia.
        assert (k' <= 0) by (apply Hmax; exact Hk'). assert (k' = 0) as -> by lia.
        apply rbd_shrink in Hk' as [_ Es]; [|lia]. contradiction.
    - exists pi. split; [exact E|]. split; [exact Hl|].
      intros i k Hk. assert (i < n) by (apply lookup_lt_Some in Hk; lia).
      destruct (H i) as (k1 & E1 & [H1 H1'] & H2); [assumption|].
      assert (k1 = k) as -> by congruence. split; [lia|]. split; [exact H1'|].
      intros k' Hk' Hr. apply H2. split; [lia|exact Hr].
  Qed.

  (** ** z_function *)
  Definition ragree (i k : nat) : Prop := i + k <= n /\ repeats i k.
  Definition rzval (i k : nat) : Prop := ragree i k /\ ~ same k (i + k).

  Lemma z_extend_rel i z k c : 0 < i < n -> length z = n -> z !! i = Some k -> ragree i k ->
    exists k', rloop (length s + 1) (z_extend_count eqb s i) (z, c) = Ok (<[i := k']> z, c + (k' - k) + (if i + k' <? n then 1 else 0)) /\
      rzval i k' /\ k <= k'.
  Proof.
    intros Hi Hl Lk Hk.
    destruct (rloop_inv_idx
      (fun m '(z', c') => exists k1, z' = <[i := k1]> z /\ ragree i k1 /\ m = n - k1 /\ k <= k1 /\ c' = c + (k1 - k))
      (fun '(z', c') => exists k1, z' = <[i := k1]> z /\ rzval i k1 /\ k <= k1 /\ c' = c + (k1 - k) + (if i + k1 <? n then 1 else 0))
      (z_extend_count eqb s i)) with (fuel := length s + 1) (m := n - k) (s := (z, c)) as ([z' c'] & E & k' & -> & H & Hkk & ->).
    - intros m [z' c'] (k1 & -> & Hk1 & -> & Hle & ->). unfold z_extend_count.
      assert (Lz : <[i := k1]> z !! i = Some k1) by (apply list_lookup_insert; lia).
      rewrite (vget_ok _ _ _ Lz). cbn [mbind res_bind]. fold n.
      destruct (Nat.ltb_spec (i + k1) n) as [Hlt|Hge].
      + destruct (vget_lt s k1) as (a & Ea & La); [fold n; lia|].
        destruct (vget_lt s (i + k1)) as (b & Eb & Lb); [fold n; lia|].
        rewrite Ea. cbn [mbind res_bind]. rewrite Eb. cbn [mbind res_bind].
        destruct (eqb a b) eqn:Eab.
        * rewrite vset_ok by (rewrite insert_length; lia). cbn [mbind res_bind].
          eexists. split; [reflexivity|]. cbn. exists (n - (k1 + 1)). split; [lia|].
          exists (k1 + 1). rewrite list_insert_insert. split; [reflexivity|]. split; [|split; [reflexivity|split; lia]].
          destruct Hk1 as [H1 H2]. split; [lia|]. intros t Ht. destruct (decide (t = k1)) as [->|]; [exists a, b; auto|].
          apply H2. lia.
        * eexists. split; [reflexivity|]. cbn. exists k1. split; [reflexivity|]. rewrite (proj2 (Nat.ltb_lt (i + k1) n)) by lia.
          split; [|split; [exact Hle|lia]]. split; [exact Hk1|].
          intros Es. apply (same_eqb _ _ _ _ La Lb) in Es. congruence.
      + eexists. split; [reflexivity|]. cbn. exists k1. split; [reflexivity|]. rewrite (proj2 (Nat.ltb_ge (i + k1) n)) by lia.
        split; [|split; [exact Hle|lia]]. split; [exact Hk1|]. intros [_ Hlt]%same_lt. lia.
    - exists k. rewrite list_insert_id by exact Lk. split; [reflexivity|]. split; [exact Hk|]. lia.
    - fold n. lia.
    - exists k'. auto.
  Qed.

  Lemma z_rel : exists z c, z_function_count eqb s = Ok (z, c) /\ rel_z_array eqb s z /\ c <= 2 * (n - 1).
  Proof.
    unfold z_function_count. fold n. destruct (decide (n = 0)) as [Hn|Hn].
    { rewrite Hn. cbn. exists [], 0. split; [reflexivity|]. split; [|lia]. split; [symmetry; exact Hn|]. intros i k H.
      rewrite lookup_nil in H. discriminate. }
    unfold range.
    destruct (rfor_range_inv (fun i '(z, l, r, c) => length z = n /\ z !! 0 = Some 0 /\
        (forall t, 0 < t < i -> exists k, z !! t = Some k /\ rzval t k) /\
        (forall t, i <= t < n -> z !! t = Some 0) /\
        l < i /\ (l = 0 -> r = 0) /\ r < n /\ (0 < l -> forall t, l + t <= r -> same t (l + t)) /\ c <= r + (i - 1))
        1 n (z_body_count eqb s) (replicate n 0, 0, 0, 0))
      as ([[[z l] r] c] & E & Hl & H0 & H & _ & _ & _ & Hr & _ & Hc).
    - lia.
    - rewrite replicate_length. split; [reflexivity|].
      split; [apply lookup_replicate; split; [reflexivity|lia]|].
      split; [intros; lia|]. split; [intros t Ht; apply lookup_replicate; split; [reflexivity|lia]|].
      split; [lia|]. split; [reflexivity|]. split; [lia|]. split; [lia|lia].
    - intros i [[[z l] r] c] Hi (Hl & H0 & H & Hz & Hli & Hl0 & Hr & Hlr & Hc). unfold z_body_count.
      (* the value copied from the box either ends at its border or is final *)
      assert (exists k, (if i <=? r then x ← vget z (i - l); vset z i (Nat.min (r - i + 1) x) else Ok z)
              = Ok (<[i := k]> z) /\ ragree i k /\ (r < i /\ k = 0 \/ i <= r /\ (i + k = r + 1 \/ i + k <= r /\ ~ same k (i + k)))) as (k & -> & Hk & Hfin).
      { destruct (Nat.leb_spec i r) as [Hle|Hgt].
        - assert (0 < l) as Hlp by lia. specialize (Hlr Hlp).
          destruct (H (i - l)) as (x & Lx & Hx); [lia|].
          rewrite (vget_ok _ _ _ Lx). cbn [mbind res_bind]. rewrite vset_ok by lia. eexists. split; [reflexivity|].
          destruct Hx as [[Hx1 Hx2] Hx3]. split.
          + split; [lia|]. intros t Ht. eapply same_trans; [apply Hx2; lia|].
            apply (same_to _ _ _ _ (Hlr (i - l + t) ltac:(lia))); lia.
          + right. split; [exact Hle|]. destruct (decide (r - i + 1 <= x)) as [Hmin|Hmin]; [left; lia|].
            right. rewrite Nat.min_r by lia. split; [lia|]. intros Es. apply Hx3.
            eapply same_trans; [exact Es|]. apply same_sym. apply (same_to _ _ _ _ (Hlr (i - l + x) ltac:(lia))); lia.
        - exists 0. rewrite list_insert_id by (apply Hz; lia). split; [reflexivity|]. split; [split; [lia|intros t Ht; lia]|]. left. lia. }
      cbn [mbind res_bind].
      destruct (z_extend_rel i (<[i := k]> z) k c) as (k' & -> & Hk' & Hkk);
        [lia|rewrite insert_length; exact Hl|apply list_lookup_insert; lia|exact Hk|].
      rewrite list_insert_insert. cbn [mbind res_bind].
      assert (Lz : <[i := k']> z !! i = Some k') by (apply list_lookup_insert; lia).
      rewrite (vget_ok _ _ _ Lz). cbn [mbind res_bind].
      assert (Hcommon : length (<[i := k']> z) = n /\ <[i := k']> z !! 0 = Some 0 /\
        (forall t, 0 < t < i + 1 -> exists k, <[i := k']> z !! t = Some k /\ rzval t k) /\
        (forall t, i + 1 <= t < n -> <[i := k']> z !! t = Some 0)).
      { rewrite insert_length. split; [exact Hl|]. split; [rewrite list_lookup_insert_ne by lia; exact H0|]. split.
        - intros t Ht. destruct (decide (t = i)) as [->|]; [eauto|].
          rewrite list_lookup_insert_ne by lia. apply H. lia.
        - intros t Ht. rewrite list_lookup_insert_ne by lia. apply Hz. lia. }
      destruct Hcommon as (C1 & C2 & C3 & C4).
      destruct Hk' as [[Hk1 Hk2] Hk3].
      (* successful comparisons move r *)
      assert (k' = k \/ i + k = r + 1 \/ r < i /\ k = 0) as Hgain.
      { destruct Hfin as [?|[_ [?|[_ Hne]]]]; [auto|auto|]. left. destruct (decide (k' = k)) as [|Hd]; [assumption|].
        exfalso. apply Hne. apply Hk2. lia. }
      assert ((if i + k' <? n then 1 else 0) <= 1) as H1 by (destruct (_ <? _); lia).
      destruct (Nat.ltb_spec r (i + k' - 1)) as [Hlt|Hge]; (eexists; split; [reflexivity|]).
      + split; [exact C1|]. split; [exact C2|]. split; [exact C3|]. split; [exact C4|].
        split; [lia|]. split; [lia|]. split; [lia|]. split; [intros _ t Ht; apply Hk2; lia|]. lia.
      + split; [exact C1|]. split; [exact C2|]. split; [exact C3|]. split; [exact C4|].
        split; [lia|]. split; [exact Hl0|]. split; [exact Hr|]. split; [exact Hlr|]. lia.
    - rewrite E. cbn [mbind res_bind]. exists z, c. split; [reflexivity|]. split; [|lia]. split; [exact Hl|].
      intros i k Hk. assert (i < n) by (apply lookup_lt_Some in Hk; lia).
      destruct (Nat.eqb_spec i 0) as [->|Hi]; [congruence|].
      destruct (H i) as (k1 & E1 & [[Hz1 Hz2] Hz3]); [lia|]. assert (k1 = k) as -> by congruence.
      split; [exact Hz2|]. intros k' Hr'. destruct (decide (k' <= k)) as [|Hgt]; [assumption|]. exfalso. apply Hz3, Hr'. lia.
  Qed.
End Per.
