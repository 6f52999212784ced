From Verif Require Import Prelude ArraySpec FenwickSpec FenwickModel FenwickProof RangeAddModel RangeAddSpec.
From Coq Require Import Ring Ring_theory.

Section Proof.
  Context {T : Type} (zero one : T) (add mul sub : T -> T -> T) (opp : T -> T) (num : nat -> T).
  Context (R : ring_theory zero one add mul sub opp (@eq T)) (num0 : num 0 = zero) (numS : forall n, num (S n) = add (num n) one).
  Add Ring TR : R.
  Lemma ra_monoid : monoid_laws zero add.
  Proof. constructor; intros; ring. Qed.
  Notation P := (mprod zero add).
  Definition bump (D : list T) p x := match D !! p with Some y => <[p := add y x]> D | None => D end.
  Lemma bump_length D p x : length (bump D p x) = length D.
  Proof. unfold bump. destruct (D !! p); [apply insert_length|reflexivity]. Qed.
  Lemma bump_P D p x k : k <= length D -> P (slice (bump D p x) 0 k) = if p <? k then add (P (slice D 0 k)) x else P (slice D 0 k).
  Proof.
    intros Hk. unfold bump. destruct (Nat.ltb_spec p k).
    - destruct (lookup_lt_is_Some_2 D p ltac:(lia)) as [y Hy]. rewrite Hy. apply (P_update zero add ra_monoid D 0 k p y); [lia|lia|intros; ring|exact Hy|reflexivity].
    - destruct (D !! p); [|reflexivity]. f_equal. apply slice_ext. intros i Hi. apply list_lookup_insert_ne. lia.
  Qed.
  (** The first tree holds the differences D of the array, the second i * D[i]. *)
  Definition ra_inv (t : ranger T) (a : list T) : Prop := exists D E, FInv zero add (ra_d t) D /\ FInv zero add (ra_i t) E /\ length D = length a /\
    E = imap (fun i d => mul d (num i)) D /\ forall i y, a !! i = Some y -> y = P (slice D 0 (i + 1)).
  Lemma E_bump D p x : bump (imap (fun i d => mul d (num i)) D) p (mul x (num p)) = imap (fun i d => mul d (num i)) (bump D p x).
  Proof.
    unfold bump. rewrite list_lookup_imap. destruct (D !! p) as [y|] eqn:Hy; cbn; [|reflexivity]. apply lookup_lt_Some in Hy as Hl. apply list_eq. intros i. rewrite list_lookup_imap. destruct (decide (i = p)) as [->|Hne].
    - rewrite !list_lookup_insert by (rewrite ?imap_length; exact Hl). cbn. f_equal. ring.
    - rewrite !list_lookup_insert_ne, list_lookup_imap by auto. reflexivity.
  Qed.
  Lemma ra_new_inv n : ra_inv (ra_new zero n) (replicate n zero).
  Proof.
    exists (replicate n zero), (replicate n zero). split; [apply fw_new_inv, ra_monoid|]. split; [apply fw_new_inv, ra_monoid|]. split; [reflexivity|]. split.
    - apply list_eq. intros i. rewrite list_lookup_imap. destruct (decide (i < n)); [rewrite !lookup_replicate_2 by lia; cbn; f_equal; ring|rewrite !lookup_ge_None_2 by (rewrite replicate_length; lia); reflexivity].
    - intros i y H. apply lookup_replicate in H as [-> H]. unfold slice. rewrite Nat.sub_0_r, drop_0, take_replicate, (mprod_replicate_e _ _ ra_monoid). reflexivity.
  Qed.
  Lemma ra_pref_ok t a k : ra_inv t a -> k <= length a -> ra_pref zero add mul sub num t k = Ok (P (slice a 0 k)).
  Proof.
    intros (D & E & ID & IE & HD & HE & Ha) Hk. unfold ra_pref. rewrite (pref_ok zero add ra_monoid _ D ID) by (try (intros; ring); lia). cbn [mbind res_bind]. rewrite (pref_ok zero add ra_monoid _ E IE) by (try (intros; ring); rewrite ?HE, ?imap_length; lia). cbn [mbind res_bind]. f_equal.
    induction k as [|k IH]; [rewrite !slice_nil, num0 by lia; cbn; ring|].
    destruct (lookup_lt_is_Some_2 D k ltac:(lia)) as [d Hd]. destruct (lookup_lt_is_Some_2 a k ltac:(lia)) as [y Hy]. assert (He : E !! k = Some (mul d (num k))) by (rewrite HE, list_lookup_imap, Hd; reflexivity).
    replace (S k) with (k + 1) by lia. rewrite (P_snoc zero add ra_monoid D 0 k d), (P_snoc zero add ra_monoid E 0 k _), (P_snoc zero add ra_monoid a 0 k y), <- IH by (eauto; lia). rewrite (Ha k y Hy), (P_snoc zero add ra_monoid D 0 k d) by (auto; lia). replace (k + 1) with (S k) by lia. rewrite numS. ring.
  Qed.
  Lemma ra_add_ok t a l r x : ra_inv t a -> l <= r -> exists t', ra_add add mul opp num t l r x = Ok t' /\ ra_inv t' (added_to add l r x a).
  Proof.
    intros (D & E & ID & IE & HD & HE & Ha) Hlr. unfold ra_add.
    assert (U : forall x u, add x u = add x (add zero u)) by (intros; ring). assert (Cm : forall x y, add x y = add y x) by (intros; ring).
    destruct (add_ok zero add sub add ra_monoid _ _ ID l x Cm U) as (t1 & -> & I1). cbn [mbind res_bind]. destruct (add_ok zero add sub add ra_monoid _ _ I1 r (opp x) Cm U) as (t2 & -> & I2). cbn [mbind res_bind].
    destruct (add_ok zero add sub add ra_monoid _ _ IE l (mul x (num l)) Cm U) as (t3 & -> & I3). cbn [mbind res_bind]. destruct (add_ok zero add sub add ra_monoid _ _ I3 r (opp (mul x (num r))) Cm U) as (t4 & -> & I4). cbn [mbind res_bind].
    eexists. split; [reflexivity|]. exists (bump (bump D l x) r (opp x)), (bump (bump E l (mul x (num l))) r (opp (mul x (num r)))). cbn [ra_d ra_i]. split; [exact I2|]. split; [exact I4|]. split; [rewrite !bump_length; unfold added_to; rewrite imap_length; exact HD|]. split.
    - replace (opp (mul x (num r))) with (mul (opp x) (num r)) by ring. rewrite HE, !E_bump. reflexivity.
    - intros i z Hz. unfold added_to in Hz. rewrite list_lookup_imap in Hz. destruct (a !! i) as [y|] eqn:Hy; [|discriminate]. cbn in Hz. injection Hz as <-. apply lookup_lt_Some in Hy as Hl. rewrite !bump_P by (rewrite ?bump_length; lia). rewrite <- (Ha i y Hy).
      destruct (Nat.leb_spec l i), (Nat.ltb_spec i r), (Nat.ltb_spec r (i + 1)), (Nat.ltb_spec l (i + 1)); cbn; try lia; ring.
  Qed.
  Lemma ra_step_ok t a o : ra_inv t a -> ra_legal (length a) o ->
    match ra_spec zero add a o with Ok (a', out) => exists t', ra_step zero add mul sub opp num t o = Ok (t', out) /\ ra_inv t' a' | Panic => ra_step zero add mul sub opp num t o = Panic | Diverge => False end.
  Proof.
    intros I Ho. destruct o as [l r x|l r|k]; cbn [ra_spec ra_step ra_legal] in *.
    - destruct (ra_add_ok t a l r x I Ho) as (t' & -> & I'). cbn [mbind res_bind]. eauto.
    - exists t. split; [|exact I]. unfold ra_sum. rewrite !(ra_pref_ok t a) by (auto; lia). cbn [mbind res_bind]. do 3 f_equal. rewrite <- (slice_app a 0 l r), (mprod_app _ _ ra_monoid) by lia. ring.
    - destruct I as (D & E & ID & IE & HD & HE & Ha). unfold ra_get. destruct (a !! k) as [y|] eqn:Hy.
      + apply lookup_lt_Some in Hy as Hl. rewrite (pref_ok zero add ra_monoid _ D ID) by (try (intros; ring); lia). cbn [mbind res_bind]. exists t. rewrite <- (Ha k y Hy). split; [reflexivity|]. exists D, E. auto.
      + apply lookup_ge_None in Hy. rewrite (pref_panic zero add _ D ID) by lia. reflexivity.
  Qed.
  Lemma ra_spec_length a o a' out : ra_spec zero add a o = Ok (a', out) -> length a' = length a.
  Proof. destruct o; cbn; [intros [= <- <-]; apply imap_length|intros [= <- <-]; reflexivity|destruct (a !! k); [intros [= <- <-]; reflexivity|discriminate]]. Qed.
  Lemma ra_run_ok ops : forall t a, ra_inv t a -> Forall (ra_legal (length a)) ops -> fmap snd (run (ra_step zero add mul sub opp num) t ops) = fmap snd (run (ra_spec zero add) a ops).
  Proof.
    induction ops as [|o ops IH]; intros t a I Hops; [reflexivity|]. apply Forall_cons in Hops as [Ho Hops]. cbn [run]. pose proof (ra_step_ok t a o I Ho) as H. destruct (ra_spec zero add a o) as [[a' out]| |] eqn:E; [|rewrite H; reflexivity|contradiction].
    destruct H as (t' & -> & I'). cbn [mbind res_bind]. specialize (IH t' a' I'). rewrite (ra_spec_length _ _ _ _ E) in IH. specialize (IH Hops). destruct (run _ t' ops) as [[]| |], (run _ a' ops) as [[]| |]; cbn in *; congruence.
  Qed.
End Proof.
