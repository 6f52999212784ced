(** The lazy segment tree over arbitrary functions: every answer is put together from the right elements and maps. *)
From Verif Require Import Prelude UtilModel UtilProof ArraySpec SegtreeModel SegtreeProof SegtreeFree LazySpec LazyModel LazyProof LazyTop RelProof LazyRel LazyFree FreeSpec LawlessSpec.

Section Free.
  Context {S F : Type} (e : S) (op : S -> S -> S) (idm : F) (mapping : F -> S -> S) (comp : F -> F -> F).
  Local Notation entry := (S * list F)%type.
  (** An unused place at the end of the tree has no value. *)
  Local Notation place := (option S * list F)%type.
  Local Notation E2 := (list place).
  Definition fmapping {A} (fs : list F) (v : list (A * list F)) : list (A * list F) := map (fun q => (q.1, fs ++ q.2)) v.
  Inductive RS : S -> E2 -> Prop :=
  | r_pad : RS e [(None, [])]
  | r_one x : RS x [(Some x, [])]
  | r_op x y v w : RS x v -> RS y w -> RS (op x y) (v ++ w)
  | r_map f x fs v : comps idm comp fs f -> RS x v -> RS (mapping f x) (fmapping fs v).
  Inductive RA : S -> E2 -> Prop :=
  | a_e : RA e []
  | a_in x v : RS x v -> RA x v
  | a_op x y v w : RA x v -> RA y w -> RA (op x y) (v ++ w).
  Definition RF (f : F) (l : list F) : Prop := comps idm comp l f.
  Lemma free_monoid {A} : @monoid_laws (list A) [] app.
  Proof. split; [intros; apply app_assoc|reflexivity|apply app_nil_r]. Qed.
  Lemma free_maps {A} : @map_laws (list (A * list F)) (list F) app [] fmapping app.
  Proof.
    split.
    - intros x. unfold fmapping. rewrite <- (map_id x) at 2. apply map_ext. intros []. reflexivity.
    - intros f g x. unfold fmapping. rewrite map_map. apply map_ext. intros q. cbn. rewrite app_assoc. reflexivity.
    - intros f x y. apply map_app.
  Qed.

  Definition keep (q : place) : option entry := match q.1 with Some x => Some (x, q.2) | None => None end.
  Definition clean (v : E2) : Prop := forall fs, (None, fs) ∈ v -> fs = [].
  Lemma clean_app v w : clean (v ++ w) -> clean v /\ clean w.
  Proof. intros H. split; intros fs Hfs; apply H; apply elem_of_app; auto. Qed.
  Lemma RS_nonempty x v : RS x v -> v <> [].
  Proof. intros H. induction H as [|x|x y v w H1 IH1 H2 IH2|f x fs v H1 H2 IH]; [discriminate|discriminate| |]; [destruct v; [contradiction|discriminate]|destruct v; [contradiction|discriminate]]. Qed.
  Lemma keep_map fs v : omap keep (fmapping fs v) = map (fun q => (q.1, fs ++ q.2)) (omap keep v).
  Proof. induction v as [|[[x|] gs] v IH]; [reflexivity| |exact IH]. cbn. f_equal. exact IH. Qed.
  Lemma RS_results x v : RS x v -> clean v -> results e op idm mapping comp (omap keep v) x.
  Proof.
    intros H. induction H as [|x|x y v w H1 IH1 H2 IH2|f x fs v H1 H2 IH]; intros Hc.
    - constructor.
    - constructor.
    - apply clean_app in Hc as [C1 C2]. rewrite omap_app. constructor; auto.
    - rewrite keep_map. assert (Hin : forall gs, (None, gs) ∈ v -> fs = [] /\ gs = []).
      { intros gs Hg. apply app_eq_nil. apply Hc. apply elem_of_list_fmap. exists (None, gs). auto. }
      constructor; [exact H1|apply IH; intros gs Hg; apply Hin; exact Hg|].
      intros Hk. apply RS_nonempty in H2. destruct v as [|[[y|] gs] v]; [contradiction|discriminate Hk|]. apply (Hin gs). left.
  Qed.
  Lemma RA_results x v : RA x v -> clean v -> results e op idm mapping comp (omap keep v) x.
  Proof.
    intros H. induction H as [|x v H|x y v w H1 IH1 H2 IH2]; intros Hc; [constructor|apply RS_results; assumption|].
    apply clean_app in Hc as [C1 C2]. rewrite omap_app. constructor; auto.
  Qed.

  Definition lift (q : entry) : place := (Some q.1, q.2).
  Definition places (a : list entry) (k : nat) : E2 := (lift <$> a) ++ replicate k (None, []).
  Definition unit (q : place) : E2 := [q].
  Definition full (a : list entry) (k : nat) : list E2 := unit <$> places a k.
  Lemma unit_prod (v : E2) : mprod [] app (unit <$> v) = v.
  Proof. induction v as [|q v IH]; [reflexivity|]. unfold mprod in *. cbn. f_equal. exact IH. Qed.
  Lemma full_prod a k l r : mprod [] app (slice (full a k) l r) = slice (places a k) l r.
  Proof. unfold slice, full. rewrite <- fmap_drop, <- fmap_take. apply unit_prod. Qed.
  Lemma keep_lift (a : list entry) : omap keep (lift <$> a) = a.
  Proof. induction a as [|[x fs] a IH]; [reflexivity|]. cbn. f_equal. exact IH. Qed.
  Lemma keep_pad k : omap keep (replicate k ((None, []) : place)) = [].
  Proof. induction k; [reflexivity|exact IHk]. Qed.
  Lemma keep_slice a k l r : omap keep (slice (places a k) l r) = slice a l r.
  Proof.
    unfold slice, places. rewrite skipn_app, <- fmap_drop, drop_replicate, firstn_app, omap_app, <- fmap_take, keep_lift, take_replicate, keep_pad.
    apply app_nil_r.
  Qed.
  Lemma clean_places a k l r : clean (slice (places a k) l r).
  Proof.
    intros fs H. unfold slice in H. apply elem_of_take in H as (i & H & _). rewrite lookup_drop in H. apply elem_of_list_lookup_2 in H.
    apply elem_of_app in H as [H|H].
    - apply elem_of_list_fmap in H as (q & [=] & _).
    - apply elem_of_replicate in H as [[= ->] _]. reflexivity.
  Qed.
  Lemma RA_slice a k l r x : RA x (mprod [] app (slice (full a k) l r)) -> results e op idm mapping comp (slice a l r) x.
  Proof. rewrite full_prod. intros H. rewrite <- (keep_slice a k). apply RA_results; [exact H|apply clean_places]. Qed.
  Lemma full_length a k : length (full a k) = length a + k.
  Proof. unfold full, places. rewrite fmap_length, app_length, fmap_length, replicate_length. reflexivity. Qed.
  Lemma full_lookup a k p q : a !! p = Some q -> full a k !! p = Some [lift q].
  Proof.
    intros H. unfold full, places. rewrite list_lookup_fmap, lookup_app_l by (rewrite fmap_length; eapply lookup_lt_Some; exact H).
    rewrite list_lookup_fmap, H. reflexivity.
  Qed.
  Lemma full_insert a k p q : p < length a -> <[p := [lift q]]> (full a k) = full (<[p := q]> a) k.
  Proof.
    intros H. unfold full, places. change [lift q] with (unit (lift q)).
    rewrite <- list_fmap_insert, insert_app_l by (rewrite fmap_length; exact H). rewrite list_fmap_insert. reflexivity.
  Qed.
  Lemma full_range a k l r f : r <= length a -> map_range (fmapping [f]) l r (full a k) = full (map_range (fun q => (q.1, f :: q.2)) l r a) k.
  Proof.
    intros Hr. unfold map_range, full, places. apply list_eq. intros i. rewrite list_lookup_imap, !list_lookup_fmap.
    destruct (decide (i < length a)) as [Hi|Hi].
    - rewrite !lookup_app_l by (rewrite fmap_length, ?imap_length; exact Hi). rewrite !list_lookup_fmap, list_lookup_imap.
      destruct (lookup_lt_is_Some_2 a i Hi) as [[x fs] ->]. cbn. destruct (_ && _); reflexivity.
    - rewrite !lookup_app_r by (rewrite fmap_length, ?imap_length; lia). rewrite !fmap_length, imap_length.
      destruct (replicate k _ !! (i - length a)) as [q|]; [|reflexivity]. cbn.
      destruct (Nat.ltb_spec i r); [lia|]. rewrite andb_false_r. reflexivity.
  Qed.

  Local Notation St := (Sim (S := S) (F := F) (S2 := E2) (F2 := list F) [] app [] fmapping RS RF).
  Definition Good (t : lazytree S F) (a : list entry) : Prop :=
    lt_n t = length a /\ lt_size t <= Nat.max 1 (2 * lt_n t - 1) /\ exists k, St t (full a k).
  Lemma H_id : RF idm []. Proof. constructor. Qed.
  Lemma H_map f x l v : RF f l -> RS x v -> RS (mapping f x) (fmapping l v). Proof. constructor; assumption. Qed.
  Lemma H_comp f g l m : RF f l -> RF g m -> RF (comp f g) (l ++ m). Proof. constructor; assumption. Qed.

  Lemma sim_next (t t' : lazytree S F) (t2' : lazytree E2 (list F)) a a' k : Good t a -> length (full a k) = lt_size t -> same t t' -> lazy_rel RS RF t' t2' ->
    LInv [] app [] fmapping t2' (full a' k) -> length a' = length a -> Good t' a'.
  Proof.
    intros (Hn & Hf & _) Hk [En Es] Hr I El. split; [congruence|]. split; [rewrite En, Es; exact Hf|]. exists k, t2'. split; [exact Hr|]. split; [exact I|].
    rewrite Es, <- Hk, !full_length, El. reflexivity.
  Qed.

  Lemma good_step t a o : Good t a ->
    match lt_step e op idm mapping comp t o with
    | Ok (t', out) => exists a', lz_any e op idm mapping comp a o (Ok (a', out)) /\ Good t' a'
    | Panic => lz_any e op idm mapping comp a o Panic
    | Diverge => False
    end.
  Proof.
    intros HG. pose proof HG as (Hn & Hf & k & HS). pose proof HS as (t2 & Hr & I & Hk). pose proof Hr as (En & _).
    destruct o as [p x|p|l r| |p f|l r f|l g|r g]; cbn [lt_step lz_any].
    - destruct (Nat.ltb_spec p (length a)) as [H|H].
      + destruct (set_ok _ _ _ _ _ free_monoid free_maps t2 _ I p [lift (x, [])] ltac:(lia)) as (t2' & E & I').
        pose proof (set_rel op idm mapping comp app [] fmapping app RS RF r_op H_id H_map H_comp t t2 p x [lift (x, [])] Hr ltac:(constructor) ltac:(lia)) as HR.
        rewrite E in HR. apply rel_ok_r in HR as (t' & E' & HR). rewrite E'. cbn [mbind res_bind]. rewrite full_insert in I' by exact H.
        eexists. split; [reflexivity|]. eapply sim_next; [exact HG|exact Hk|eapply set_same; exact E'|exact HR|exact I'|apply insert_length].
      + unfold lt_set. destruct (Nat.ltb_spec p (lt_n t)); [lia|]. reflexivity.
    - destruct (a !! p) as [q|] eqn:Eq.
      + pose proof (lookup_lt_Some _ _ _ Eq) as Hp.
        destruct (get_ok _ _ _ _ _ free_monoid free_maps t2 _ I p [lift q]) as (t2' & E & I'); [apply full_lookup; exact Eq|].
        pose proof (get_rel idm mapping comp [] fmapping app RS RF H_id H_map H_comp t t2 p Hr ltac:(lia)) as HR.
        rewrite E in HR. apply rel_ok_r in HR as ([t' x] & E' & HR & Hx). rewrite E'. cbn [mbind res_bind].
        eexists. split; [eexists; split; [reflexivity|]|eapply sim_next; [exact HG|exact Hk|eapply get_same; exact E'|exact HR|exact I'|reflexivity]].
        cbn [snd] in Hx. apply RS_results in Hx; [destruct q; exact Hx|]. intros fs Hin. apply elem_of_list_singleton in Hin. discriminate Hin.
      + apply lookup_ge_None_1 in Eq. unfold lt_get. destruct (Nat.ltb_spec p (lt_n t)); [lia|]. reflexivity.
    - destruct (Nat.leb_spec l r) as [H1|H1]; [destruct (Nat.leb_spec r (length a)) as [H2|H2]|]; cbn [andb].
      + destruct (prod_ok _ _ _ _ _ free_monoid free_maps t2 _ I l r ltac:(lia)) as (t2' & E & I').
        pose proof (prod_rel e op idm mapping comp [] app [] fmapping app RS RA RF a_e a_op a_in H_id H_map H_comp t t2 l r Hr ltac:(lia)) as HR.
        rewrite E in HR. apply rel_ok_r in HR as ([t' x] & E' & HR & Hx). rewrite E'. cbn [mbind res_bind].
        cbn [snd] in Hx. apply RA_slice in Hx.
        eexists. split; [eexists; split; [reflexivity|exact Hx]|]. eapply sim_next; [exact HG|exact Hk|eapply prod_same; exact E'|exact HR|exact I'|reflexivity].
      + unfold lt_prod. destruct (Nat.leb_spec r (lt_n t)); [lia|]. rewrite andb_false_r. reflexivity.
      + unfold lt_prod. destruct (Nat.leb_spec l r); [lia|]. reflexivity.
    - pose proof (all_prod_ok _ _ _ _ free_monoid t2 _ I) as E. pose proof (all_prod_rel RS RF t t2 Hr) as HR.
      rewrite E in HR. apply rel_ok_r in HR as (x & E' & Hx). rewrite E'. cbn [mbind res_bind]. eexists. split; [|exact HG].
      eexists. split; [reflexivity|]. apply a_in in Hx. replace (full a k) with (slice (full a k) 0 (length a + k)) in Hx.
      + apply RA_slice in Hx. unfold slice in Hx. rewrite drop_0, take_ge in Hx by lia. exact Hx.
      + unfold slice. rewrite drop_0. apply take_ge. rewrite full_length. lia.
    - destruct (a !! p) as [q|] eqn:Eq.
      + pose proof (lookup_lt_Some _ _ _ Eq) as Hp.
        destruct (apply_ok _ _ _ _ _ free_monoid free_maps t2 _ I p [lift q] [f]) as (t2' & E & I'); [apply full_lookup; exact Eq|].
        pose proof (apply_rel op idm mapping comp app [] fmapping app RS RF r_op H_id H_map H_comp t t2 p f [f] Hr ltac:(constructor) ltac:(lia)) as HR.
        rewrite E in HR. apply rel_ok_r in HR as (t' & E' & HR). rewrite E'. cbn [mbind res_bind].
        change (fmapping [f] [lift q]) with [lift (q.1, f :: q.2)] in I'. rewrite full_insert in I' by exact Hp.
        eexists. split; [reflexivity|]. eapply sim_next; [exact HG|exact Hk|eapply apply_same; exact E'|exact HR|exact I'|apply insert_length].
      + apply lookup_ge_None_1 in Eq. unfold lt_apply. destruct (Nat.ltb_spec p (lt_n t)); [lia|]. reflexivity.
    - destruct (Nat.leb_spec l r) as [H1|H1]; [destruct (Nat.leb_spec r (length a)) as [H2|H2]|]; cbn [andb].
      + destruct (apply_range_ok _ _ _ _ _ free_monoid free_maps t2 _ I l r [f] ltac:(lia)) as (t2' & E & I').
        pose proof (apply_range_rel op idm mapping comp app [] fmapping app RS RF r_op H_id H_map H_comp t t2 l r f [f] Hr ltac:(constructor) ltac:(lia)) as HR.
        rewrite E in HR. apply rel_ok_r in HR as (t' & E' & HR). rewrite E'. cbn [mbind res_bind]. rewrite full_range in I' by exact H2.
        eexists. split; [reflexivity|]. eapply sim_next; [exact HG|exact Hk|eapply apply_range_same; exact E'|exact HR|exact I'|apply imap_length].
      + unfold lt_apply_range. destruct (Nat.leb_spec r (lt_n t)); [lia|]. rewrite andb_false_r. reflexivity.
      + unfold lt_apply_range. destruct (Nat.leb_spec l r); [lia|]. reflexivity.
    - destruct (Nat.leb_spec l (length a)) as [H1|H1]; cbn [andb].
      + destruct (g e) eqn:Hg.
        * destruct (sim_max_right e op idm mapping comp [] app [] fmapping app RS RA RF a_e a_op a_in H_id H_map H_comp free_monoid free_maps t _ l g HS)
            as (t' & r & E' & [Sn Ss] & HS' & Hlr & Hpost); [lia|exact Hg|]. rewrite E'. cbn [mbind res_bind].
          exists a. split; [|split; [congruence|]; split; [rewrite Sn, Ss; exact Hf|eauto]]. exists r. split; [reflexivity|]. split; [exact Hlr|].
          destruct Hpost as [(-> & x & Hx & Hgx)|(Hrs & (x & Hx & Hgx) & y & Hy & Hgy)].
          -- split; [lia|]. rewrite Hn. split; [|contradiction]. exists x. split; [|exact Hgx]. destruct Hx as [Hx|Hx].
             ++ rewrite Hn in Hx. eapply RA_slice. exact Hx.
             ++ apply RA_slice in Hx. rewrite full_length in Hx. unfold slice in *. rewrite take_ge in Hx |- * by (rewrite drop_length; lia). exact Hx.
          -- apply RA_slice in Hx. apply RA_slice in Hy. split; [lia|]. split; eauto.
        * unfold lt_max_right. destruct (Nat.leb_spec l (lt_n t)); [|lia]. rewrite Hg. reflexivity.
      + unfold lt_max_right. destruct (Nat.leb_spec l (lt_n t)); [lia|]. reflexivity.
    - destruct (Nat.leb_spec r (length a)) as [H1|H1]; cbn [andb].
      + destruct (g e) eqn:Hg.
        * destruct (sim_min_left e op idm mapping comp [] app [] fmapping app RS RA RF a_e a_op a_in H_id H_map H_comp free_monoid free_maps t _ r g HS)
            as (t' & l & E' & [Sn Ss] & HS' & Hlr & (x & Hx & Hgx) & Hbad); [lia|exact Hg|]. rewrite E'. cbn [mbind res_bind].
          exists a. split; [|split; [congruence|]; split; [rewrite Sn, Ss; exact Hf|eauto]]. exists l. split; [reflexivity|]. split; [exact Hlr|].
          apply RA_slice in Hx. split; [eauto|]. intros Hl. destruct (Hbad Hl) as (y & Hy & Hgy). apply RA_slice in Hy. eauto.
        * unfold lt_min_left. destruct (Nat.leb_spec r (lt_n t)); [|lia]. rewrite Hg. reflexivity.
      + unfold lt_min_left. destruct (Nat.leb_spec r (lt_n t)); [lia|]. reflexivity.
  Qed.

  Lemma good_history ops : forall t a, Good t a ->
    match run (lt_step e op idm mapping comp) t ops with
    | Ok (t', outs) => exists a', allowed_run (lz_any e op idm mapping comp) a ops (Ok (a', outs)) /\ Good t' a'
    | Panic => allowed_run (lz_any e op idm mapping comp) a ops Panic
    | Diverge => False
    end.
  Proof.
    induction ops as [|o ops IH]; intros t a HG; cbn [run]; [exists a; split; [constructor|exact HG]|].
    pose proof (good_step t a o HG) as H. destruct (lt_step e op idm mapping comp t o) as [[t' out]| |]; cbn [mbind res_bind]; [|constructor; exact H|destruct H].
    destruct H as (a' & Ha & HG'). specialize (IH t' a' HG'). destruct (run (lt_step e op idm mapping comp) t' ops) as [[t2 outs]| |]; cbn [mbind res_bind].
    - destruct IH as (a2 & Hr & G2). exists a2. split; [eapply ar_ok; eassumption|exact G2].
    - eapply ar_later; eassumption.
    - destruct IH.
  Qed.

  Definition fresh (v : list S) : list entry := map (fun x => (x, [])) v.
  Lemma good_from v : (Z.of_nat (length v) < 2 ^ 32)%Z -> exists t, lt_from e op idm v = Ok t /\ Good t (fresh v).
  Proof.
    intros Hlen. unfold lt_from. rewrite Z.mod_small by lia. rewrite ceil_lg_spec by lia. cbn [mbind res_bind].
    set (lg := Z.to_nat (Z.log2_up (Z.of_nat (length v)))).
    assert (Hle : length v <= 2 ^ lg).
    { destruct (ceil_lg_pow (Z.of_nat (length v))) as (j & Hj & _ & Hle); [lia|]. rewrite ceil_lg_spec in Hj by lia. injection Hj as <-.
      apply Nat2Z.inj_le. unfold lg. rewrite Nat2Z.inj_pow, Z2Nat.id by apply Z.log2_up_nonneg. exact Hle. }
    set (k := 2 ^ lg - length v).
    assert (Hfl : length (full (fresh v) k) = 2 ^ lg) by (rewrite full_length; unfold fresh; rewrite map_length; lia).
    destruct (build_ok [] app [] fmapping app free_monoid free_maps [(None, [])] lg (full (fresh v) k)) as (d2 & s2 & Hc & Hb & HR); [lia|auto|].
    assert (Hd : rel (Forall2 RS) (copy_into (replicate (2 * 2 ^ lg) e) (2 ^ lg) v) (copy_into (replicate (2 * 2 ^ lg) [(None, [])]) (2 ^ lg) (full (fresh v) k))).
    { assert (E : copy_into (replicate (2 * 2 ^ lg) e) (2 ^ lg) v = copy_into (replicate (2 * 2 ^ lg) e) (2 ^ lg) (v ++ replicate k e)).
      { unfold copy_into. rewrite app_length, !replicate_length. replace (2 ^ lg + (length v + k)) with (2 * 2 ^ lg) by lia.
        destruct (Nat.leb_spec (2 ^ lg + length v) (2 * 2 ^ lg)); [|lia]. rewrite Nat.leb_refl. f_equal. f_equal. rewrite <- app_assoc. f_equal.
        rewrite !drop_replicate. replace (2 * 2 ^ lg - 2 * 2 ^ lg) with 0 by lia. rewrite app_nil_r. f_equal. lia. }
      rewrite E. apply copy_rel; [apply replicate_rel; constructor|]. unfold full, places. rewrite fmap_app. apply Forall2_app.
      - clear. unfold fresh. induction v; constructor; [constructor|assumption].
      - rewrite fmap_replicate. apply replicate_rel. constructor. }
    rewrite Hc in Hd. apply rel_ok_r in Hd as (d & -> & Hd). cbn [mbind res_bind].
    pose proof (build_rel op idm app [] RS RF r_op H_id d d2 (2 ^ lg) Hd) as HB. rewrite Hb in HB. apply rel_ok_r in HB as ([d' l'] & -> & HB). cbn [mbind res_bind].
    eexists. split; [reflexivity|]. split; [cbn; unfold fresh; rewrite map_length; reflexivity|]. split.
    - cbn [lt_n lt_size]. unfold lg. destruct (decide (length v = 0)) as [E0|Hn0]; [rewrite E0; apply Nat.le_max_l|].
      enough (2 ^ Z.to_nat (Z.log2_up (Z.of_nat (length v))) < 2 * length v) by lia.
      apply Nat2Z.inj_lt. rewrite Nat2Z.inj_pow, Z2Nat.id by apply Z.log2_up_nonneg. rewrite Nat2Z.inj_mul. change (Z.of_nat 2) with 2%Z.
      destruct (decide (length v = 1)) as [->|H1]; [reflexivity|].
      pose proof (Z.log2_up_spec (Z.of_nat (length v)) ltac:(lia)) as [Hlo _].
      pose proof (Z.log2_up_pos (Z.of_nat (length v)) ltac:(lia)) as Hp.
      rewrite <- Z.sub_1_r in Hlo. replace (Z.log2_up (Z.of_nat (length v))) with (1 + (Z.log2_up (Z.of_nat (length v)) - 1))%Z by lia.
      rewrite Z.pow_add_r by lia. lia.
    - exists k, (Lazytree (2 ^ lg) (2 ^ lg) lg s2.1 s2.2). split; [|split; [|exact Hfl]].
      + split; [exact Hle|]. split; [reflexivity|]. split; [reflexivity|]. destruct s2. exact HB.
      + split; cbn [lt_n lt_size lt_log lt_d lt_lz]; [symmetry; exact Hfl|reflexivity|reflexivity|]. destruct s2. exact HR.
  Qed.

  (** With the laws there is only one result. *)
  Lemma comps_lawful l f : map_laws op idm mapping comp -> comps idm comp l f -> forall x, mapping f x = foldr mapping x l.
  Proof.
    intros ML H. induction H as [|f|l1 l2 f g H1 IH1 H2 IH2]; intros x.
    - apply (mpl_id _ _ _ _ ML).
    - reflexivity.
    - rewrite (mpl_comp _ _ _ _ ML), IH1, IH2, foldr_app. reflexivity.
  Qed.
  Definition value (q : entry) : S := foldr mapping q.1 q.2.
  Lemma map_prod f l : monoid_laws e op -> map_laws op idm mapping comp -> l <> [] -> mapping f (mprod e op l) = mprod e op (map (mapping f) l).
  Proof.
    intros L ML. induction l as [|x l IH]; [contradiction|]. intros _. cbn. rewrite (mpl_op _ _ _ _ ML). destruct l as [|y l].
    - cbn. rewrite (ml_idr _ _ L), <- (mpl_op _ _ _ _ ML), (ml_idr _ _ L). reflexivity.
    - f_equal. apply IH. discriminate.
  Qed.
  Lemma results_lawful l x : monoid_laws e op -> map_laws op idm mapping comp -> results e op idm mapping comp l x -> x = mprod e op (map value l).
  Proof.
    intros L ML H. induction H as [|x|l1 l2 x y H1 IH1 H2 IH2|fs f l x H1 H2 IH Hn].
    - reflexivity.
    - cbn. symmetry. apply (ml_idr _ _ L).
    - rewrite IH1, IH2, map_app, (mprod_app _ _ L). reflexivity.
    - rewrite IH. destruct (decide (l = [])) as [->|Hl].
      + rewrite (comps_lawful fs f ML H1), (Hn eq_refl). reflexivity.
      + rewrite map_prod; [|exact L|exact ML|destruct l; [contradiction|discriminate]]. f_equal. rewrite !map_map. apply map_ext. intros q. unfold value. cbn.
        rewrite (comps_lawful fs f ML H1), foldr_app. reflexivity.
  Qed.
End Free.
