(** The Fenwick tree over arbitrary functions: the invariant of FenwickProof.v with mixes instead of sums. *)
From Verif Require Import Prelude UtilModel UtilProof ArraySpec FenwickSpec FenwickModel FenwickProof FreeSpec MixSpec.

Section Mix.
  Context {T U : Type} (zero : T) (add : T -> T -> T) (sub : T -> T -> T) (addu : T -> U -> T).
  Local Notation entry := (list (T + U)).
  Definition mix (l : list entry) (x : T) : Prop := mixes zero add addu (concat l) x.
  Definition node (ary : list T) (j : nat) (l : list entry) : Prop := exists x, ary !! (j - 1) = Some x /\ mix l x.

  Lemma mix_app l1 l2 x y : mix l1 x -> mix l2 y -> mix (l1 ++ l2) (add x y).
  Proof. intros H1 H2. unfold mix. rewrite concat_app. constructor; assumption. Qed.
  Lemma mix_slice (a : list entry) l m r x y : l <= m <= r -> mix (slice a l m) x -> mix (slice a m r) y -> mix (slice a l r) (add x y).
  Proof. intros H Hx Hy. rewrite <- (slice_app a l m r) by lia. apply mix_app; assumption. Qed.
  Lemma mix_perm l l' x : concat l ≡ₚ concat l' -> mix l x -> mix l' x.
  Proof. intros H Hx. unfold mix in *. eapply mx_perm; eassumption. Qed.

  (** Node j (1-based) holds a mix of the entries of (j - lowbit j, j]. *)
  Record MInv (t : fenwick T) (a : list entry) : Prop := {
    mi_n : fw_n t = length a;
    mi_len : length (fw_ary t) = length a;
    mi_node : forall j, 1 <= j <= length a -> node (fw_ary t) j (slice a (j - lowbit j) j) }.

  Lemma mix_empty l : Forall (fun q => q = []) l -> mix l zero.
  Proof. intros H. assert (concat l = []) as E by (induction H as [|q l -> H IH]; [reflexivity|exact IH]). unfold mix. rewrite E. constructor. Qed.

  Lemma new_mix n : MInv (fw_new zero n) (replicate n []).
  Proof.
    constructor; cbn [fw_new fw_n fw_ary]; rewrite ?replicate_length; try reflexivity.
    intros j Hj. exists zero. split; [apply lookup_replicate_2; lia|]. apply mix_empty. unfold slice. rewrite drop_replicate, take_replicate. apply Forall_replicate. reflexivity.
  Qed.

  Definition given (v : list T) : list entry := map (fun x => [inl x]) v.
  Lemma from_mix v : exists t, fw_from zero add v = Ok t /\ MInv t (given v).
  Proof.
    unfold fw_from, range_incl. set (n := length v). set (a := given v). assert (La : length a = n) by apply map_length.
    match goal with |- context [rfor _ ?b _] => set (body := b) end.
    destruct (rfor_range_inv (fun i ary => length ary = n /\ forall j, 1 <= j <= n ->
        if j <? i then node ary j (slice a (j - lowbit j) j)
        else exists x, filled i j x /\ node ary j (slice a (j - lowbit j) x))
        1 (S n) body (replicate n zero)) as (ary & Hr & Hlen & Hnode).
    - lia.
    - rewrite replicate_length. split; [reflexivity|]. intros j Hj.
      destruct (Nat.ltb_spec j 1); [lia|]. exists (j - lowbit j). split.
      + split; [left; reflexivity|]. intros c Hc. lia.
      + rewrite slice_nil by lia. exists zero. split; [apply lookup_replicate_2; lia|constructor].
    - intros i ary Hi [Hlen Hnode]. unfold body.
      destruct (vget_lt v (i - 1)) as (x & Hx & Hx'); [fold n; lia|]. rewrite Hx. cbn [mbind res_bind].
      pose proof (Hnode i ltac:(lia)) as Hi'. rewrite (proj2 (Nat.ltb_ge i i)) in Hi' by lia.
      destruct Hi' as (xi & Hf & y & Hai & My). apply filled_self in Hf; [|lia]. subst xi.
      rewrite (vget_ok _ _ _ Hai). cbn [mbind res_bind].
      rewrite vset_ok by lia. cbn [mbind res_bind].
      pose proof (lowbit_pos i ltac:(lia)) as Hlp. pose proof (lowbit_le i) as Hle.
      assert (mix (slice a (i - lowbit i) i) (add y x)) as Mi.
      { apply (mix_slice a _ (i - 1)); [lia|exact My|]. replace i with (i - 1 + 1) at 2 by lia.
        rewrite (slice_single a (i - 1) [inl x]); [constructor|]. unfold a, given. change (map ?f v) with (f <$> v). rewrite list_lookup_fmap, Hx'. reflexivity. }
      set (w := add y x) in *.
      set (j := i + lowbit i).
      assert (forall ary', length ary' = n ->
         (forall k, 1 <= k <= n -> k <> i -> k <> j -> ary' !! (k - 1) = ary !! (k - 1)) ->
         ary' !! (i - 1) = Some w ->
         (j <= n -> node ary' j (slice a (j - lowbit j) i)) ->
         length ary' = n /\ forall k, 1 <= k <= n ->
           if k <? i + 1 then node ary' k (slice a (k - lowbit k) k)
           else exists x, filled (i + 1) k x /\ node ary' k (slice a (k - lowbit k) x)) as Hgen.
      { intros ary' Hl' Hoth Hati Hatj. split; [exact Hl'|]. intros k Hk.
        destruct (decide (k = i)) as [->|Hki].
        { destruct (Nat.ltb_spec i (i + 1)); [exists w; auto|lia]. }
        destruct (decide (k = j)) as [->|Hkj].
        { destruct (Nat.ltb_spec j (i + 1)); [unfold j in *; lia|]. exists i.
          split; [apply filled_step_parent; lia|apply Hatj; lia]. }
        specialize (Hnode k Hk). unfold node. rewrite Hoth by assumption.
        destruct (Nat.ltb_spec k i), (Nat.ltb_spec k (i + 1)); try lia; [exact Hnode|].
        destruct Hnode as (xk & Hf & Hak). exists xk. split; [|exact Hak].
        apply filled_step_other; [lia|exact Hkj|exact Hf]. }
      destruct (Nat.leb_spec j n) as [Hjn|Hjn].
      + rewrite (vget_ok _ (i - 1) w) by (rewrite list_lookup_insert by lia; reflexivity).
        cbn [mbind res_bind].
        pose proof (Hnode j ltac:(unfold j in *; lia)) as Hj'.
        rewrite (proj2 (Nat.ltb_ge j i)) in Hj' by (unfold j; lia).
        destruct Hj' as (xj & Hfj & z & Haj & Mz).
        pose proof (filled_ge i j xj ltac:(unfold j; lia) Hfj) as Hge.
        apply filled_parent in Hfj; [|lia]. subst xj.
        rewrite (vget_ok _ (j - 1) z)
          by (rewrite list_lookup_insert_ne by (unfold j; lia); exact Haj).
        cbn [mbind res_bind]. rewrite vset_ok by (rewrite insert_length; lia).
        eexists; split; [reflexivity|]. apply Hgen.
        * rewrite !insert_length. exact Hlen.
        * intros k Hk Hki Hkj. rewrite !list_lookup_insert_ne by lia. reflexivity.
        * rewrite list_lookup_insert_ne by (unfold j; lia). apply list_lookup_insert. lia.
        * intros _. exists (add z w). split; [apply list_lookup_insert; rewrite insert_length; lia|].
          apply (mix_slice a _ (i - lowbit i)); [lia|exact Mz|exact Mi].
      + eexists; split; [reflexivity|]. apply Hgen.
        * rewrite insert_length. exact Hlen.
        * intros k Hk Hki Hkj. rewrite list_lookup_insert_ne by lia. reflexivity.
        * apply list_lookup_insert. lia.
        * lia.
    - cbn [fw_ary fw_new]. rewrite Hr. cbn [mbind res_bind]. eexists; split; [reflexivity|].
      constructor; cbn [fw_n fw_ary]; rewrite ?La; [reflexivity|exact Hlen|].
      intros j Hj. specialize (Hnode j Hj). destruct (Nat.ltb_spec j (S n)); [exact Hnode|lia].
  Qed.

  Section Reads.
    Context (t : fenwick T) (a : list entry) (I : MInv t a).
    Local Notation n := (length a).

    Lemma pref_mix idx : idx <= n -> exists x, fw_pref zero add t idx = Ok x /\ mix (slice a 0 idx) x.
    Proof.
      intros Hidx. unfold fw_pref.
      match goal with |- exists _, rloop _ ?st _ = _ /\ _ => set (step := st) end.
      apply (rloop_inv_idx (fun m '(i, sum) => m = i /\ i <= idx /\ mix (slice a i idx) sum)
        (fun r => mix (slice a 0 idx) r) step) with (m := idx); [|split; [reflexivity|]; split; [lia|]; rewrite slice_nil by lia; constructor|lia].
      intros m [i sum] (-> & Hi & Hsum). unfold step. destruct (Nat.ltb_spec 0 i) as [H0|H0].
      - destruct (mi_node _ _ I i ltac:(lia)) as (y & Hy & My). rewrite (vget_ok _ _ _ Hy). cbn [mbind res_bind].
        rewrite land_pred by lia. eexists; split; [reflexivity|]. cbn.
        pose proof (lowbit_pos i H0). pose proof (lowbit_le i).
        exists (i - lowbit i). split; [lia|]. split; [reflexivity|]. split; [lia|].
        apply (mix_perm (slice a i idx ++ slice a (i - lowbit i) i)); [|apply mix_app; assumption].
        rewrite <- (slice_app a (i - lowbit i) i idx), !concat_app by lia. apply Permutation_app_comm.
      - assert (i = 0) as -> by lia. eexists; split; [reflexivity|]. exact Hsum.
    Qed.

    Lemma pref_mix_panic idx : n < idx -> fw_pref zero add t idx = Panic.
    Proof.
      intros H. unfold fw_pref. replace (idx + 1) with (S idx) by lia. cbn [rloop].
      destruct (Nat.ltb_spec 0 idx); [|lia].
      rewrite vget_panic; [reflexivity|]. rewrite (mi_len _ _ I). lia.
    Qed.

    Lemma add_mix p u :
      exists t', fw_add addu t p u = Ok t' /\ MInv t' (match a !! p with Some q => <[p := q ++ [inr u]]> a | None => a end).
    Proof.
      unfold fw_add. rewrite (mi_n _ _ I).
      set (a' := match a !! p with Some q => <[p := q ++ [inr u]]> a | None => a end).
      assert (length a' = n) as La' by (unfold a'; destruct (a !! p); rewrite ?insert_length; reflexivity).
      assert (forall j x, 1 <= j <= n -> covers j (p + 1) -> mix (slice a (j - lowbit j) j) x -> mix (slice a' (j - lowbit j) j) (addu x u)) as Hin.
      { intros j x Hj Hc Hx. unfold covers in Hc. unfold a'.
        destruct (lookup_lt_is_Some_2 a p ltac:(lia)) as [q Hq]. rewrite Hq.
        assert (Hdec : forall (b : list entry) q, length b = n -> b !! p = Some q -> slice b (j - lowbit j) j = slice b (j - lowbit j) p ++ [q] ++ slice b (p + 1) j).
        { intros b q' Hb Hz. rewrite <- (slice_app b _ p j), <- (slice_app b p (p + 1) j), (slice_single b p q' Hz) by lia. reflexivity. }
        unfold mix in *. rewrite (Hdec a q eq_refl Hq) in Hx.
        rewrite (Hdec (<[p := q ++ [inr u]]> a) (q ++ [inr u])) by (first [apply insert_length|apply list_lookup_insert; lia]).
        rewrite (slice_ext (<[p := q ++ [inr u]]> a) a (j - lowbit j) p) by (intros i Hi; apply list_lookup_insert_ne; lia).
        rewrite (slice_ext (<[p := q ++ [inr u]]> a) a (p + 1) j) by (intros i Hi; apply list_lookup_insert_ne; lia).
        apply (mx_addu _ _ _ _ _ u) in Hx. eapply mx_perm; [|exact Hx]. rewrite !concat_app. cbn [concat app]. rewrite !app_nil_r, <- !app_assoc.
        do 2 apply Permutation_app_head. apply Permutation_app_comm. }
      assert (forall j, 1 <= j <= n -> ~ covers j (p + 1) ->
        slice a' (j - lowbit j) j = slice a (j - lowbit j) j) as Hout.
      { intros j Hj Hc. unfold covers in Hc. unfold a'.
        destruct (a !! p) as [x|]; [|reflexivity].
        apply slice_ext. intros i Hi. apply list_lookup_insert_ne. lia. }
      assert (forall j i, covers j i \/ ~ covers j i) as Hdec by (intros; unfold covers; lia).
      match goal with |- context [rloop _ ?st _] => set (step := st) end.
      destruct (rloop_inv_idx (fun m '(i, ary) => m = n + 1 - i /\ p + 1 <= i /\ length ary = n /\
          (forall j, 1 <= j <= n -> (covers j (p + 1) /\ i <= j <-> covers j i)) /\
          (forall j, 1 <= j <= n -> (covers j (p + 1) /\ j < i -> node ary j (slice a' (j - lowbit j) j)) /\
             (~ (covers j (p + 1) /\ j < i) -> node ary j (slice a (j - lowbit j) j))))
        (fun ary => MInv (Fenwick n ary) a') step)
        with (fuel := n + 2) (m := n + 1 - (p + 1)) (s := (p + 1, fw_ary t)) as (ary & Hr & HF).
      - intros m [i ary] (-> & Hpi & Hlen & Hch & Hval). unfold step.
        destruct (Nat.leb_spec i n) as [Hin'|Hin'].
        + pose proof (lowbit_pos i ltac:(lia)) as Hl.
          destruct (Hval i ltac:(lia)) as [_ Hvi]. destruct (Hvi ltac:(lia)) as (y & Hy & My). rewrite (vget_ok _ _ _ Hy).
          cbn [mbind res_bind]. rewrite vset_ok by lia. cbn [mbind res_bind].
          eexists; split; [reflexivity|]. cbn. exists (n + 1 - (i + lowbit i)). split; [lia|].
          split; [reflexivity|]. split; [lia|]. split; [rewrite insert_length; exact Hlen|].
          assert (covers i (p + 1)) as Hci by (apply Hch; [lia|]; apply covers_self; lia).
          assert (forall j, 1 <= j <= n -> (covers j (p + 1) /\ i + lowbit i <= j <-> covers j (i + lowbit i))) as Hch'.
          { intros j Hj. rewrite <- (covers_next i j) by lia. rewrite <- Hch by lia. split.
            - intros [H1 H2]. split; [split; [exact H1|lia]|lia].
            - intros [[H1 H2] H3]. split; [exact H1|].
              assert (covers j (i + lowbit i)) as Hc; [|unfold covers in Hc; lia].
              apply covers_next_1; [lia|lia| |exact H3]. apply (Hch j Hj); auto. }
          split; [exact Hch'|].
          intros j Hj. destruct (Hval j Hj) as [Hv1 Hv2].
          destruct (decide (j = i)) as [->|Hne].
          { split; [|intros Hno; exfalso; apply Hno; split; [exact Hci|lia]].
            intros _. exists (addu y u). split; [apply list_lookup_insert; lia|]. apply Hin; [lia|exact Hci|exact My]. }
          unfold node in *. rewrite list_lookup_insert_ne by lia. split.
          * intros [H1 H2]. apply Hv1. split; [exact H1|].
            destruct (decide (j < i)) as [|Hge]; [assumption|exfalso].
            assert (covers j i) as H3 by (apply Hch; [lia|]; split; [exact H1|lia]).
            assert (covers j (i + lowbit i)) as Hc by (apply covers_next_1; [lia|lia|exact H3|exact Hne]).
            unfold covers in Hc. lia.
          * intros Hno. apply Hv2. intros [H1 H2]. apply Hno. split; [exact H1|lia].
        + eexists; split; [reflexivity|]. cbn. constructor; cbn [fw_n fw_ary]; rewrite ?La'; [reflexivity|exact Hlen|].
          intros j Hj. destruct (Hval j Hj) as [Hv1 Hv2].
          destruct (Hdec j (p + 1)) as [Hc|Hc].
          * apply Hv1. split; [exact Hc|lia].
          * rewrite Hout by assumption. apply Hv2. tauto.
      - split; [reflexivity|]. split; [lia|]. split; [apply (mi_len _ _ I)|]. split.
        + intros j Hj. unfold covers. lia.
        + intros j Hj. split; [unfold covers; lia|]. intros _. apply (mi_node _ _ I). exact Hj.
      - lia.
      - rewrite Hr. cbn [mbind res_bind]. eauto.
    Qed.

    Lemma partition_point_mix pred : 0 < n -> (Z.of_nat n < 2 ^ 64)%Z ->
      exists r, fw_partition_point zero add t pred = Ok r /\ r <= n /\
        (0 < r -> exists x, mix (slice a 0 r) x /\ pred x = true) /\
        (r < n -> exists x, mix (slice a 0 (r + 1)) x /\ pred x = false).
    Proof.
      intros Hn Hn64. unfold fw_partition_point. rewrite (mi_n _ _ I), lg_spec by lia.
      cbn [mbind res_bind]. set (top := Z.to_nat (Z.log2 (Z.of_nat n))).
      assert (n < 2 ^ (top + 1)) as Htop.
      { destruct (Z.log2_spec (Z.of_nat n)) as [_ H]; [lia|].
        apply Nat2Z.inj_lt. rewrite Nat2Z.inj_pow, Nat2Z.inj_add. unfold top.
        rewrite Z2Nat.id by apply Z.log2_nonneg. exact H. }
      unfold range_incl.
      match goal with |- context [rfor _ ?b _] => set (body := b) end.
      destruct (rfor_rev_range_inv (fun i '(pos, sum) => pos <= n /\ mix (slice a 0 pos) sum /\
          (exists q, pos = 2 ^ i * q) /\ (0 < pos -> pred sum = true) /\
          (pos + 2 ^ i <= n -> exists x, mix (slice a 0 (pos + 2 ^ i)) x /\ pred x = false))
         0 (S top) body (0, zero)) as ([pos sum] & Hr & Hpos & Hsum & _ & Ht & Hf).
      - lia.
      - split; [lia|]. split; [rewrite slice_nil by lia; constructor|].
        split; [exists 0; lia|]. split; [lia|]. replace (S top) with (top + 1) by lia. intros; exfalso; lia.
      - intros i [pos sum] Hi (Hpos & Hsum & Hq & Ht & Hf). unfold body.
        pose proof (pow2_gt0 i).
        assert (2 ^ (i + 1) = 2 * 2 ^ i) as E by (rewrite Nat.add_1_r; apply Nat.pow_succ_r').
        destruct (Nat.leb_spec (pos + 2 ^ i) n) as [Hle|Hgt].
        + destruct (mi_node _ _ I (pos + 2 ^ i) ltac:(lia)) as (x & Hx & Mx).
          rewrite lowbit_pos_bit in Mx by exact Hq.
          replace (pos + 2 ^ i - 2 ^ i) with pos in Mx by lia.
          rewrite (vget_ok _ _ _ Hx). cbn [mbind res_bind].
          pose proof (mix_slice a 0 pos (pos + 2 ^ i) sum x ltac:(lia) Hsum Mx) as Hs.
          destruct Hq as [q Hq].
          destruct (pred (add sum x)) eqn:Hp; (eexists; split; [reflexivity|]).
          * split; [lia|]. split; [exact Hs|]. split; [exists (2 * q + 1); rewrite Hq, E; lia|].
            split; [auto|]. intros Hle2. rewrite E in Hf.
            replace (pos + 2 ^ i + 2 ^ i) with (pos + 2 * 2 ^ i) in * by lia. apply Hf. lia.
          * split; [lia|]. split; [exact Hsum|]. split; [exists (2 * q); rewrite Hq, E; lia|].
            split; [exact Ht|]. eauto.
        + destruct Hq as [q Hq]. eexists; split; [reflexivity|].
          split; [lia|]. split; [exact Hsum|]. split; [exists (2 * q); rewrite Hq, E; lia|].
          split; [exact Ht|]. lia.
      - rewrite Hr. cbn [mbind res_bind]. exists pos. split; [reflexivity|]. split; [exact Hpos|].
        split; [eauto|]. rewrite Nat.pow_0_r in Hf. intros H. apply Hf. lia.
    Qed.
    Lemma partition_point_mix_empty pred : n = 0 -> fw_partition_point zero add t pred = Panic.
    Proof. intros H. unfold fw_partition_point. rewrite (mi_n _ _ I), H. reflexivity. Qed.
  End Reads.

  Lemma step_mix t a o : MInv t a ->
    match fw_step zero add sub addu t o with
    | Ok (t', out) => exists a', fw_any zero add sub addu a o (Ok (a', out)) /\ MInv t' a'
    | Panic => fw_any zero add sub addu a o Panic
    | Diverge => False
    end.
  Proof.
    intros I. destruct o as [p u|i|l r]; cbn [fw_any fw_step].
    - destruct (add_mix t a I p u) as (t' & -> & I'). cbn [mbind res_bind]. eauto.
    - destruct (Nat.leb_spec i (length a)).
      + destruct (pref_mix t a I i) as (x & -> & Hx); [assumption|]. cbn [mbind res_bind]. exists a. split; [|exact I]. exists x. auto.
      + rewrite (pref_mix_panic t a I) by assumption. reflexivity.
    - unfold fw_sum. destruct (Nat.leb_spec l (length a)), (Nat.leb_spec r (length a)); cbn [andb].
      + destruct (pref_mix t a I r) as (x & -> & Hx); [assumption|]. destruct (pref_mix t a I l) as (y & -> & Hy); [assumption|].
        cbn [mbind res_bind]. exists a. split; [|exact I]. exists x, y. auto.
      + rewrite (pref_mix_panic t a I r) by assumption. reflexivity.
      + destruct (pref_mix t a I r) as (x & -> & Hx); [assumption|]. cbn [mbind res_bind].
        rewrite (pref_mix_panic t a I l) by assumption. reflexivity.
      + rewrite (pref_mix_panic t a I r) by assumption. reflexivity.
  Qed.
  Lemma run_mix ops : forall t a, MInv t a ->
    match run (fw_step zero add sub addu) t ops with
    | Ok (t', outs) => exists a', allowed_run (fw_any zero add sub addu) a ops (Ok (a', outs)) /\ MInv t' a'
    | Panic => allowed_run (fw_any zero add sub addu) a ops Panic
    | Diverge => False
    end.
  Proof.
    induction ops as [|o ops IH]; intros t a HG; cbn [run]; [exists a; split; [constructor|exact HG]|].
    pose proof (step_mix t a o HG) as H. destruct (fw_step zero add sub addu t o) as [[t' out]| |]; cbn [mbind res_bind]; [|constructor; exact H|destruct H].
    destruct H as (a' & Ha & HG'). specialize (IH t' a' HG'). destruct (run (fw_step zero add sub addu) t' ops) as [[t2 outs]| |]; cbn [mbind res_bind].
    - destruct IH as (a2 & Hr & G2). exists a2. split; [eapply ar_ok; eassumption|exact G2].
    - eapply ar_later; eassumption.
    - destruct IH.
  Qed.

  Lemma any_run_length ops a out : allowed_run (fw_any zero add sub addu) a ops out -> forall a' outs, out = Ok (a', outs) -> length a' = length a.
  Proof.
    intros H. induction H as [a|a o ops H|a a1 a2 o out ops outs H HR IH|a a1 o out ops H HR IH]; intros a' outs' E; try discriminate E; [injection E as -> _; reflexivity|].
    injection E as -> _. rewrite (IH _ _ eq_refl). destruct o as [p u|i|l r]; cbn [fw_any] in H.
    - injection H as -> _. destruct (a !! p); [apply insert_length|reflexivity].
    - destruct (_ <=? _); [|discriminate H]. destruct H as (x & _ & [= -> _]). reflexivity.
    - destruct (_ && _); [|discriminate H]. destruct H as (x & y & _ & _ & [= -> _]). reflexivity.
  Qed.

  (** Under the laws a mix is the sum. *)
  Definition amount (q : T + U) : T := match q with inl x => x | inr u => addu zero u end.
  Lemma mixes_lawful l x : monoid_laws zero add -> (forall x y, add x y = add y x) -> (forall x u, addu x u = add x (addu zero u)) ->
    mixes zero add addu l x -> x = mprod zero add (map amount l).
  Proof.
    intros L C HU H. induction H as [|x|l1 l2 x y H1 IH1 H2 IH2|l x u H IH|l l' x HP H IH].
    - reflexivity.
    - cbn. symmetry. apply (ml_idr _ _ L).
    - rewrite map_app, (mprod_app _ _ L). congruence.
    - rewrite map_app, (mprod_app _ _ L), HU, IH. cbn. rewrite (ml_idr _ _ L). reflexivity.
    - rewrite IH. clear IH H. induction HP as [|q l l' HP IH|q1 q2 l|l1 l2 l3 HP1 IH1 HP2 IH2]; [reflexivity| | |congruence].
      + unfold mprod in *. cbn. rewrite IH. reflexivity.
      + unfold mprod. cbn. rewrite !(ml_assoc _ _ L), (C (amount q2)). reflexivity.
  Qed.
End Mix.
