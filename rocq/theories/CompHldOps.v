(** Heavy-light decomposition of the tree that hangs at the root: every call against one value per vertex. *)
From Verif Require Import Prelude UtilModel ArraySpec LazySpec LazyModel LazyTop TreeProof TreeSpec CompSpec HldSpec CompHldSpec HldModel CompTree CompHldTree CompHldProof.

Section ops.
  Context {S F : Type} (e : S) (op : S -> S -> S) (idm : F) (mapping : F -> S -> S) (comp : F -> F -> F).
  Context (L : monoid_laws e op) (ML : map_laws op idm mapping comp).
  Context (g : list (list nat)) (root : nat) (T : tree_at g root).
  Notation C := (reached g root).
  Context (par dep : nat -> nat) (Ht : ctree g C root par dep).
  Context (vs : list nat) (Hvs : forall v, v ∈ vs <-> C v) (Hvn : NoDup vs) (Hiso : forall v, ~ C v -> par v = v).
  Context (h : hl) (hv : nat -> option nat) (pos posr : nat -> nat) (Hd : decomp g C root par dep vs h hv pos posr).
  Notation n := (length g).
  Notation m := (length vs).
  Notation anc := (anc par).
  Notation head := (headf par dep hv).
  Notation light := (light par dep hv).
  Notation seg := (seg par dep).
  Notation pathp := (pathp g).
  Notation LInv := (LInv e op idm mapping).
  Notation P := (mprod e op).

  Lemma n_pos : 0 < n.
  Proof. pose proof (C_lt _ _ _ _ _ Ht _ (t_root _ _ _ _ _ Ht)). lia. Qed.
  Lemma pos_lt v : v < n -> pos v < n.
  Proof.
    intros Hv. pose proof n_pos as Hn. destruct (reached_dec g root T v) as [H|H].
    - pose proof (d_lt _ _ _ _ _ _ _ _ _ _ Hd v H). pose proof (m_le _ _ _ _ _ Ht vs Hvs Hvn). lia.
    - rewrite (d_pos_out _ _ _ _ _ _ _ _ _ _ Hd v Hv H). exact Hn.
  Qed.
  Lemma pos_root : pos root = 0.
  Proof.
    pose proof (t_root _ _ _ _ _ Ht) as Hr. destruct (d_onto _ _ _ _ _ _ _ _ _ _ Hd 0) as (v & Hv & E).
    { assert (root ∈ vs) as H by (apply Hvs; exact Hr). destruct vs; [inversion H|cbn; lia]. }
    pose proof (proj2 (d_nest _ _ _ _ _ _ _ _ _ _ Hd root v Hr Hv) (anc_root _ _ _ _ _ Ht v Hv)). lia.
  Qed.
  Lemma pos_get v : v < n -> h_pos h !! v = Some (pos v).
  Proof.
    intros Hv. destruct (reached_dec g root T v) as [H|H]; [apply (d_pos _ _ _ _ _ _ _ _ _ _ Hd v H)|].
    rewrite (d_pos_out _ _ _ _ _ _ _ _ _ _ Hd v Hv H). apply (d_out _ _ _ _ _ _ _ _ _ _ Hd v Hv H).
  Qed.
  Lemma rootlike_pos v : v < n -> rootlike g root v <-> pos v = 0.
  Proof.
    intros Hv. split.
    - intros [->|H]; [apply pos_root|apply (d_pos_out _ _ _ _ _ _ _ _ _ _ Hd v Hv H)].
    - intros E. destruct (reached_dec g root T v) as [H|H]; [left|right; exact H].
      eapply (d_inj _ _ _ _ _ _ _ _ _ _ Hd); [exact H|apply (t_root _ _ _ _ _ Ht)|]. rewrite pos_root. exact E.
  Qed.
  Lemma shares_pos u v : u < n -> v < n -> shares g root u v <-> pos u = pos v.
  Proof.
    intros Hu Hv. split.
    - intros [->|[A B]]; [reflexivity|]. apply rootlike_pos in A; [|exact Hu]. apply rootlike_pos in B; [|exact Hv]. congruence.
    - intros E. destruct (decide (pos u = 0)) as [Z|Z].
      + right. split; apply rootlike_pos; auto. congruence.
      + left. assert (forall v, v < n -> pos v <> 0 -> C v) as HC.
        { intros x Hx Hz. destruct (reached_dec g root T x) as [H|H]; [exact H|]. exfalso. apply Hz. apply (d_pos_out _ _ _ _ _ _ _ _ _ _ Hd x Hx H). }
        apply (d_inj _ _ _ _ _ _ _ _ _ _ Hd); [apply HC; auto|apply HC; auto; congruence|exact E].
  Qed.

  (** The vertex values held by the array a of the positions. *)
  Definition wof (a : list S) : list S := map (fun v => default e (a !! pos v)) (seq 0 n).
  Lemma wof_length a : length (wof a) = n.
  Proof. unfold wof. rewrite map_length, seq_length. reflexivity. Qed.
  Lemma wof_lookup a v : length a = n -> v < n -> wof a !! v = a !! pos v.
  Proof.
    intros Ha Hv. unfold wof. change (map ?f ?l) with (f <$> l). rewrite list_lookup_fmap, lookup_seq_lt by exact Hv. cbn.
    destruct (lookup_lt_is_Some_2 a (pos v)) as [x ->]; [|reflexivity]. rewrite Ha. apply pos_lt. exact Hv.
  Qed.
  Lemma vals_slice a l k (Hl : forall i x, l !! i = Some x -> C x /\ pos x = k + i) : length a = n ->
    vals e (wof a) l = slice a k (k + length l).
  Proof.
    intros Ha. apply list_eq. intros i. unfold vals. change (map ?f ?l) with (f <$> l). rewrite list_lookup_fmap. destruct (l !! i) as [x|] eqn:E; cbn.
    - pose proof (lookup_lt_Some _ _ _ E). destruct (Hl i x E) as [Hx Hp]. rewrite slice_lookup by lia. rewrite wof_lookup by eauto using C_lt. rewrite Hp.
      destruct (lookup_lt_is_Some_2 a (k + i)) as [y ->]; [|reflexivity]. rewrite Ha, <- Hp. apply pos_lt. eauto using C_lt.
    - apply lookup_ge_None_1 in E. unfold slice. rewrite lookup_take_ge by lia. reflexivity.
  Qed.
  Lemma vals_seg a x y : length a = n -> C x -> C y -> anc x y -> head x = head y ->
    vals e (wof a) (seg x y) = slice a (pos x) (pos y + 1).
  Proof.
    intros Ha Hx Hy A E. rewrite (vals_slice a (seg x y) (pos x)); [|intros i z Hz; eapply seg_pos_lookup; eauto|exact Ha].
    rewrite seg_length. f_equal. pose proof (head_pos _ _ _ _ _ Ht _ _ _ _ _ Hd x Hx). pose proof (head_pos _ _ _ _ _ Ht _ _ _ _ _ Hd y Hy).
    pose proof (head_dep _ _ _ _ _ Ht _ _ _ _ _ Hd x Hx). pose proof (anc_dep _ _ _ _ _ Ht x y Hy A). rewrite E in *. lia.
  Qed.
  Lemma vals_app (w : list S) l1 l2 : vals e w (l1 ++ l2) = vals e w l1 ++ vals e w l2.
  Proof. apply map_app. Qed.

  (** w' is w with the values of the reached vertices in Q mapped by f. *)
  Definition cmapped (Q : nat -> Prop) (f : F) (w w' : list S) : Prop :=
    length w' = length w /\
    forall x y, C x -> w !! x = Some y -> (Q x -> w' !! x = Some (mapping f y)) /\ (~ Q x -> w' !! x = Some y).
  Lemma wof_out a v : length a = n -> v < n -> ~ C v -> wof a !! v = wof a !! root.
  Proof.
    intros Ha Hv H. rewrite !wof_lookup; [|exact Ha|apply (C_lt _ _ _ _ _ Ht), (t_root _ _ _ _ _ Ht)|exact Ha|exact Hv].
    rewrite pos_root, (d_pos_out _ _ _ _ _ _ _ _ _ _ Hd v Hv H). reflexivity.
  Qed.
  Lemma cmapped_mapped (Q : nat -> Prop) f a a' : length a = n -> length a' = n -> cmapped Q f (wof a) (wof a') ->
    mapped mapping (fun x => exists y, C y /\ Q y /\ shares g root x y) f (wof a) (wof a').
  Proof.
    intros Ha Ha' [HL HM]. split; [exact HL|]. intros x y Hxy. assert (x < n) as Hx by (apply lookup_lt_Some in Hxy; rewrite wof_length in Hxy; exact Hxy).
    pose proof (t_root _ _ _ _ _ Ht) as Hr.
    destruct (reached_dec g root T x) as [H|H].
    - destruct (HM x y H Hxy) as [A B]. split.
      + intros (z & Hz & Qz & [->|[Sx Sz]]); [auto|]. destruct Sx as [->|Sx]; [|contradiction]. destruct Sz as [->|Sz]; [auto|contradiction].
      + intros Hn. apply B. intros HQ. apply Hn. exists x. split; [exact H|]. split; [exact HQ|left; reflexivity].
    - rewrite (wof_out a x Ha Hx H) in Hxy. rewrite (wof_out a' x Ha' Hx H). destruct (HM root y Hr Hxy) as [A B]. split.
      + intros (z & Hz & Qz & [->|[_ Sz]]); [contradiction|]. destruct Sz as [->|Sz]; [auto|contradiction].
      + intros Hn. apply B. intros HQ. apply Hn. exists root. split; [exact Hr|]. split; [exact HQ|]. right. split; [right; exact H|left; reflexivity].
  Qed.

  Lemma range_mapped a l r f (Q : nat -> Prop) : length a = n -> (forall x, C x -> Q x <-> l <= pos x < r) ->
    cmapped Q f (wof a) (wof (map_range (mapping f) l r a)) /\ length (map_range (mapping f) l r a) = n.
  Proof.
    intros Ha HQ. assert (length (map_range (mapping f) l r a) = n) as Hl by (unfold map_range; rewrite imap_length; exact Ha).
    split; [|exact Hl]. split; [rewrite !wof_length; reflexivity|]. intros x y Hx Hxy.
    rewrite wof_lookup in Hxy |- * by eauto using C_lt. unfold map_range. rewrite list_lookup_imap, Hxy. cbn. rewrite (HQ x Hx).
    destruct (Nat.leb_spec l (pos x)); destruct (Nat.ltb_spec (pos x) r); cbn; split; intros; try reflexivity; exfalso; lia.
  Qed.
  Lemma mapped_app (Q1 Q2 : nat -> Prop) f w w1 w2 : cmapped Q1 f w w1 -> cmapped Q2 f w1 w2 -> (forall x, Q1 x -> ~ Q2 x) -> (forall x, Q1 x \/ ~ Q1 x) ->
    cmapped (fun x => Q1 x \/ Q2 x) f w w2.
  Proof.
    intros [L1 H1] [L2 H2] Hdis Hdec. split; [congruence|]. intros x y Hc Hx. destruct (H1 x y Hc Hx) as [A B]. split.
    - intros [Hq|Hq].
      + apply (H2 x (mapping f y) Hc (A Hq)). apply Hdis. exact Hq.
      + destruct (Hdec x) as [Hq1|Hq1]; [exfalso; exact (Hdis x Hq1 Hq)|]. apply (H2 x y Hc (B Hq1)). exact Hq.
    - intros Hq. apply (H2 x y Hc); [apply B|]; tauto.
  Qed.
  Lemma mapped_ext (Q1 Q2 : nat -> Prop) f w w1 : (forall x, Q1 x <-> Q2 x) -> cmapped Q1 f w w1 -> cmapped Q2 f w w1.
  Proof. intros HQ [L1 H1]. split; [exact L1|]. intros x y Hc Hx. rewrite <- HQ. apply H1; assumption. Qed.
  Lemma mapped_refl (Q : nat -> Prop) f w : (forall x, ~ Q x) -> cmapped Q f w w.
  Proof. intros H. split; [reflexivity|]. intros x y _ Hx. split; [intros Hq; exfalso; exact (H x Hq)|auto]. Qed.

  (** *** One turn of the climbing loop *)
  Lemma climb_ok u v : C u -> C v ->
    (head u = head v /\ climb h u v = Ok None) \/
    exists u1 v1, climb h u v = Ok (Some (u1, v1)) /\ ((u1, v1) = (u, v) \/ (u1, v1) = (v, u)) /\ C u1 /\ C v1 /\
      C (head u1) /\ C (par (head u1)) /\ ~ anc (head u1) v1 /\ light u1 = Datatypes.S (light (par (head u1))) /\
      dep (head v1) <= dep (head u1) /\ dep (par (head u1)) < dep (head u1).
  Proof.
    intros Hu Hv. unfold climb. rewrite (vget_ok _ _ _ (d_head _ _ _ _ _ _ _ _ _ _ Hd u Hu)). cbn [mbind res_bind].
    rewrite (vget_ok _ _ _ (d_head _ _ _ _ _ _ _ _ _ _ Hd v Hv)). cbn [mbind res_bind].
    destruct (Nat.eqb_spec (head u) (head v)) as [E|Hne]; [left; auto|right].
    pose proof (head_lt _ _ _ _ _ Ht _ _ _ _ _ Hd u Hu) as Hhu. pose proof (head_lt _ _ _ _ _ Ht _ _ _ _ _ Hd v Hv) as Hhv.
    rewrite (vget_ok _ _ _ (d_dep _ _ _ _ _ _ _ _ _ _ Hd _ Hhu)). cbn [mbind res_bind]. rewrite (vget_ok _ _ _ (d_dep _ _ _ _ _ _ _ _ _ _ Hd _ Hhv)). cbn [mbind res_bind].
    assert (forall x y, C x -> C y -> head x <> head y -> dep (head y) <= dep (head x) ->
      C (head x) /\ C (par (head x)) /\ ~ anc (head x) y /\ light x = Datatypes.S (light (par (head x))) /\
      dep (head y) <= dep (head x) /\ dep (par (head x)) < dep (head x)) as HH.
    { intros x y Hx Hy Hxy Hle. pose proof (head_lt _ _ _ _ _ Ht _ _ _ _ _ Hd x Hx) as Hhx. split; [exact Hhx|]. split; [apply (par_lt _ _ _ _ _ Ht); exact Hhx|].
      assert (~ anc (head x) y) as Hna.
      { intros A. apply Hxy. rewrite <- (head_head _ _ _ _ _ Ht _ _ _ _ _ Hd x Hx). eapply head_between; eauto.
        eapply anc_of_dep; [exact Ht|exact Hy|eapply head_anc; eauto|exact A|exact Hle]. }
      assert (head x <> root) as Hr by (intros Er; apply Hna; rewrite Er; apply (anc_root _ _ _ _ _ Ht); exact Hy).
      split; [exact Hna|]. split; [eapply light_climb; eauto|]. split; [exact Hle|]. pose proof (proj2 (t_par _ _ _ _ _ Ht _ Hhx Hr)). lia. }
    destruct (Nat.ltb_spec (dep (head u)) (dep (head v))).
    - exists v, u. split; [reflexivity|]. split; [auto|]. split; [exact Hv|]. split; [exact Hu|]. apply HH; auto. lia.
    - exists u, v. split; [reflexivity|]. split; [auto|]. split; [exact Hu|]. split; [exact Hv|]. apply HH; auto.
  Qed.
  Lemma by_pos_ok u v : C u -> C v -> head u = head v ->
    exists a b, by_pos h u v = Ok (a, b) /\ ((a, b) = (u, v) \/ (a, b) = (v, u)) /\ C a /\ C b /\ head a = head b /\ anc a b.
  Proof.
    intros Hu Hv E. unfold by_pos. rewrite (vget_ok _ _ _ (d_pos _ _ _ _ _ _ _ _ _ _ Hd u Hu)). cbn [mbind res_bind].
    rewrite (vget_ok _ _ _ (d_pos _ _ _ _ _ _ _ _ _ _ Hd v Hv)). cbn [mbind res_bind]. destruct (Nat.ltb_spec (pos v) (pos u)).
    - exists v, u. split; [reflexivity|]. split; [auto|]. split; [exact Hv|]. split; [exact Hu|]. split; [auto|]. eapply same_head_anc; eauto. lia.
    - exists u, v. split; [reflexivity|]. split; [auto|]. split; [exact Hu|]. split; [exact Hv|]. split; [auto|]. eapply same_head_anc; eauto.
  Qed.
  Lemma pathp_swap u v a b l : C a -> C b -> (a, b) = (u, v) \/ (a, b) = (v, u) -> pathp a b l -> pathp u v l.
  Proof. intros Ca Cb [E|E] Hp; injection E as -> ->; [exact Hp|]. eapply pathp_sym; eauto. Qed.

  Section range.
    Context (x y : nat) (Hx : C x) (Hy : C y) (A : anc x y) (E : head x = head y).
    Lemma seg_bounds : pos x <= pos y + 1 <= n.
    Proof.
      pose proof (proj2 (seg_pos _ _ _ _ _ Ht _ _ _ _ _ Hd x y y Hx Hy Hy A E) (conj A (anc_refl par y))) as H.
      pose proof (pos_lt y (C_lt _ _ _ _ _ Ht y Hy)). lia.
    Qed.
    Lemma seg_mapped a f : length a = n ->
      cmapped (fun z => z ∈ seg x y) f (wof a) (wof (map_range (mapping f) (pos x) (pos y + 1) a)) /\ length (map_range (mapping f) (pos x) (pos y + 1) a) = n.
    Proof.
      intros Ha. apply range_mapped; [exact Ha|]. intros z Hz. rewrite (elem_seg _ _ _ _ _ Ht _ _ z Hy A).
      rewrite <- (seg_pos _ _ _ _ _ Ht _ _ _ _ _ Hd x y z Hx Hy Hz A E). lia.
    Qed.
  End range.

  (** The pieces of a path, as pairs of the top and the bottom vertex. *)
  Definition piece (p : nat * nat) : Prop := C (fst p) /\ C (snd p) /\ anc (fst p) (snd p) /\ head (fst p) = head (snd p).
  Definition pieces (ps : list (nat * nat)) : list nat := concat (map (fun p => seg (fst p) (snd p)) ps).
  Definition falling (ps : list (nat * nat)) : Prop := forall i j p q, i < j -> ps !! i = Some p -> ps !! j = Some q -> dep (fst q) <= dep (fst p).
  Lemma pieces_snoc ps p : pieces (ps ++ [p]) = pieces ps ++ seg (fst p) (snd p).
  Proof. unfold pieces. rewrite map_app, concat_app. cbn. rewrite app_nil_r. reflexivity. Qed.
  Lemma falling_snoc ps p : falling ps -> Forall (fun q => dep (fst p) <= dep (fst q)) ps -> falling (ps ++ [p]).
  Proof.
    intros H Hp i j q r Hij Hi Hj. apply lookup_app_Some in Hj as [Hj|[Hj1 Hj2]].
    - rewrite lookup_app_l in Hi by (apply lookup_lt_Some in Hj; lia). eapply H; eauto.
    - apply list_lookup_singleton_Some in Hj2 as [Hj2 <-]. rewrite lookup_app_l in Hi by lia. rewrite Forall_forall in Hp. apply Hp. eapply elem_of_list_lookup_2; eauto.
  Qed.

  Lemma path_prod_ok a t u0 v0 fuel : LInv t a -> length a = n -> C u0 -> C v0 -> light u0 + light v0 < fuel ->
    exists t' ps, path_prod_fuel e op idm mapping comp fuel (Hld t h) u0 v0 = Ok (Hld t' h, P (vals e (wof a) (pieces ps))) /\ LInv t' a /\ pathp u0 v0 (pieces ps) /\
      Forall piece ps /\ falling ps /\ length ps <= light u0 + light v0 + 1.
  Proof.
    intros I Ha Hu0 Hv0 Hf. unfold path_prod_fuel. cbn [hd_tree hd_data].
    pose (J := fun (s : nat * nat * lazytree S F * S) => let '(u, v, t, acc) := s in
      C u /\ C v /\ LInv t a /\ exists ps, acc = P (vals e (wof a) (pieces ps)) /\ (forall l, pathp u v l -> pathp u0 v0 (pieces ps ++ l)) /\
      Forall piece ps /\ falling ps /\ length ps + light u + light v <= light u0 + light v0 /\
      Forall (fun p => dep (head u) <= dep (fst p) /\ dep (head v) <= dep (fst p) /\ (dep u <= dep (fst p) \/ dep v <= dep (fst p))) ps).
    destruct (rloop_inv J (fun s => J s /\ let '(u, v, _, _) := s in head u = head v) (fun s => let '(u, v, _, _) := s in light u + light v)
      (path_prod_step e op idm mapping comp h)) with (fuel := fuel) (s := (u0, v0, t, e)) as ([[[u v] t1] acc] & -> & (Hu & Hv & I1 & ps & -> & Hl0 & Hps & Hfall & Hlen & Hdep) & Eh).
    - intros [[[u v] t1] acc] (Hu & Hv & I1 & ps & -> & Hl0 & Hps & Hfall & Hlen & Hdep). unfold path_prod_step.
      destruct (climb_ok u v Hu Hv) as [[E ->]|(u1 & v1 & -> & Hsw & Hu1 & Hv1 & Hh & Hp & Hna & Hlt & Hd1 & Hd2)].
      + cbn [mbind res_bind]. eexists. split; [reflexivity|]. split; [|exact E]. split; [exact Hu|]. split; [exact Hv|]. split; [exact I1|]. exists ps. auto 10.
      + cbn [mbind res_bind]. rewrite (vget_ok _ _ _ (d_head _ _ _ _ _ _ _ _ _ _ Hd u1 Hu1)). cbn [mbind res_bind].
        rewrite (vget_ok _ _ _ (d_pos _ _ _ _ _ _ _ _ _ _ Hd _ Hh)). cbn [mbind res_bind]. rewrite (vget_ok _ _ _ (d_pos _ _ _ _ _ _ _ _ _ _ Hd _ Hu1)). cbn [mbind res_bind].
        assert (anc (head u1) u1) as A1 by (eapply head_anc; eauto). assert (head (head u1) = head u1) as E1 by (eapply head_head; eauto).
        destruct (prod_ok e op idm mapping comp L ML t1 a I1 (pos (head u1)) (pos u1 + 1)) as (t2 & -> & I2).
        { rewrite (li_n _ _ _ _ _ _ I1), Ha. apply seg_bounds; auto. }
        cbn [mbind res_bind]. rewrite (vget_ok _ _ _ (d_parent _ _ _ _ _ _ _ _ _ _ Hd _ Hh)). cbn [mbind res_bind].
        eexists. split; [reflexivity|]. split.
        * split; [exact Hp|]. split; [exact Hv1|]. split; [exact I2|]. exists (ps ++ [(head u1, u1)]). rewrite pieces_snoc. cbn [fst snd].
          assert (Forall (fun p => dep (head u1) <= dep (fst p) /\ dep (head v1) <= dep (fst p) /\ (dep u1 <= dep (fst p) \/ dep v1 <= dep (fst p))) ps) as Hdep1.
          { eapply Forall_impl; [exact Hdep|]. intros p. cbn. destruct Hsw as [Hsw|Hsw]; injection Hsw as -> ->; lia. }
          pose proof (head_dep _ _ _ _ _ Ht _ _ _ _ _ Hd _ Hp) as Hd3. pose proof (head_dep _ _ _ _ _ Ht _ _ _ _ _ Hd _ Hu1) as Hd4.
          split; [|split; [|split; [|split; [|split]]]].
          -- rewrite vals_app, (mprod_app _ _ L). rewrite vals_seg by auto. reflexivity.
          -- intros l Hl. rewrite <- app_assoc. apply Hl0. eapply pathp_swap; [| |exact Hsw|]; [assumption..|]. eapply pathp_climb; eauto.
          -- apply Forall_app. split; [exact Hps|]. constructor; [|constructor]. split; [exact Hh|]. split; [exact Hu1|]. auto.
          -- apply falling_snoc; [exact Hfall|]. eapply Forall_impl; [exact Hdep1|]. cbn. intros p Hp1. apply Hp1.
          -- rewrite app_length. cbn. destruct Hsw as [Hsw|Hsw]; injection Hsw as -> ->; lia.
          -- apply Forall_app. split; [|constructor; [cbn; lia|constructor]]. eapply Forall_impl; [exact Hdep1|]. cbn. intros p Hp1. lia.
        * destruct Hsw as [Hsw|Hsw]; injection Hsw as -> ->; lia.
    - split; [exact Hu0|]. split; [exact Hv0|]. split; [exact I|]. exists []. split; [reflexivity|]. split; [auto|]. split; [constructor|].
      split; [intros i j p q _ Hi; discriminate|]. split; [cbn; lia|constructor].
    - exact Hf.
    - cbn [mbind res_bind]. destruct (by_pos_ok u v Hu Hv Eh) as (x & y & -> & Hsw & Hx & Hy & E & A). cbn [mbind res_bind fst snd].
      rewrite (vget_ok _ _ _ (d_pos _ _ _ _ _ _ _ _ _ _ Hd _ Hx)). cbn [mbind res_bind]. rewrite (vget_ok _ _ _ (d_pos _ _ _ _ _ _ _ _ _ _ Hd _ Hy)). cbn [mbind res_bind].
      destruct (prod_ok e op idm mapping comp L ML t1 a I1 (pos x) (pos y + 1)) as (t2 & -> & I2).
      { rewrite (li_n _ _ _ _ _ _ I1), Ha. apply seg_bounds; auto. }
      cbn [mbind res_bind]. exists t2, (ps ++ [(x, y)]). rewrite pieces_snoc. cbn [fst snd]. split; [|split; [exact I2|split; [|split; [|split]]]].
      + do 2 f_equal. rewrite vals_app, (mprod_app _ _ L). rewrite (vals_seg a x y) by auto. reflexivity.
      + apply Hl0. eapply pathp_swap; [| |exact Hsw|]; [assumption..|]. eapply pathp_chain; eauto.
      + apply Forall_app. split; [exact Hps|]. constructor; [|constructor]. split; [exact Hx|]. split; [exact Hy|]. auto.
      + apply falling_snoc; [exact Hfall|]. pose proof (anc_dep _ _ _ _ _ Ht x y Hy A). eapply Forall_impl; [exact Hdep|]. cbn. intros p Hp1.
        destruct Hsw as [Hsw|Hsw]; injection Hsw as -> ->; lia.
      + rewrite app_length. cbn. lia.
  Qed.

  Lemma apply_path_ok a t u0 v0 f fuel : LInv t a -> length a = n -> C u0 -> C v0 -> light u0 + light v0 < fuel ->
    exists t' a' l, apply_path_fuel op idm mapping comp fuel (Hld t h) u0 v0 f = Ok (Hld t' h) /\ LInv t' a' /\ length a' = n /\ pathp u0 v0 l /\
      cmapped (fun x => x ∈ l) f (wof a) (wof a').
  Proof.
    intros I Ha Hu0 Hv0 Hf. unfold apply_path_fuel. cbn [hd_tree hd_data].
    pose (J := fun (s : nat * nat * lazytree S F) => let '(u, v, t) := s in
      C u /\ C v /\ exists a1 l0, LInv t a1 /\ length a1 = n /\ cmapped (fun x => x ∈ l0) f (wof a) (wof a1) /\ forall l, pathp u v l -> pathp u0 v0 (l0 ++ l)).
    destruct (rloop_inv J (fun s => J s /\ let '(u, v, _) := s in head u = head v) (fun s => let '(u, v, _) := s in light u + light v)
      (apply_path_step op idm mapping comp h f)) with (fuel := fuel) (s := (u0, v0, t)) as ([[u v] t1] & -> & (Hu & Hv & a1 & l0 & I1 & Ha1 & M1 & Hl0) & Eh).
    - intros [[u v] t1] (Hu & Hv & a1 & l0 & I1 & Ha1 & M1 & Hl0). unfold apply_path_step.
      destruct (climb_ok u v Hu Hv) as [[E ->]|(u1 & v1 & -> & Hsw & Hu1 & Hv1 & Hh & Hp & Hna & Hlt & _)].
      + cbn [mbind res_bind]. eexists. split; [reflexivity|]. split; [|exact E]. split; [exact Hu|]. split; [exact Hv|]. exists a1, l0. auto.
      + cbn [mbind res_bind]. rewrite (vget_ok _ _ _ (d_head _ _ _ _ _ _ _ _ _ _ Hd u1 Hu1)). cbn [mbind res_bind].
        rewrite (vget_ok _ _ _ (d_pos _ _ _ _ _ _ _ _ _ _ Hd _ Hh)). cbn [mbind res_bind]. rewrite (vget_ok _ _ _ (d_pos _ _ _ _ _ _ _ _ _ _ Hd _ Hu1)). cbn [mbind res_bind].
        assert (anc (head u1) u1) as A1 by (eapply head_anc; eauto). assert (head (head u1) = head u1) as E1 by (eapply head_head; eauto).
        destruct (apply_range_ok e op idm mapping comp L ML t1 a1 I1 (pos (head u1)) (pos u1 + 1) f) as (t2 & -> & I2).
        { rewrite (li_n _ _ _ _ _ _ I1), Ha1. apply seg_bounds; auto. }
        cbn [mbind res_bind]. rewrite (vget_ok _ _ _ (d_parent _ _ _ _ _ _ _ _ _ _ Hd _ Hh)). cbn [mbind res_bind].
        destruct (seg_mapped (head u1) u1 Hh Hu1 A1 E1 a1 f Ha1) as [M2 Ha2].
        assert (forall l, pathp (par (head u1)) v1 l -> pathp u0 v0 ((l0 ++ seg (head u1) u1) ++ l)) as Hnext.
        { intros l Hl. rewrite <- app_assoc. apply Hl0. eapply pathp_swap; [| |exact Hsw|]; [assumption..|]. eapply pathp_climb; eauto. }
        eexists. split; [reflexivity|]. split.
        * split; [exact Hp|]. split; [exact Hv1|]. eexists _, (l0 ++ seg (head u1) u1). split; [exact I2|]. split; [exact Ha2|]. split; [|exact Hnext].
          destruct (pathp_exists _ _ _ _ _ Ht (par (head u1)) v1 Hp Hv1) as [l Hl]. pose proof (pathp_NoDup _ _ _ _ (Hnext l Hl)) as Hnd.
          apply NoDup_app in Hnd as (Hnd & _). apply NoDup_app in Hnd as (_ & Hdis & _).
          eapply mapped_ext; [|eapply mapped_app; [exact M1|exact M2|exact Hdis|]].
          -- intros x. cbv beta. rewrite elem_of_app. reflexivity.
          -- intros x. cbv beta. destruct (decide (x ∈ l0)); auto.
        * destruct Hsw as [Hsw|Hsw]; injection Hsw as -> ->; lia.
    - split; [exact Hu0|]. split; [exact Hv0|]. exists a, []. split; [exact I|]. split; [exact Ha|]. split; [|auto]. apply mapped_refl. intros x Hx. inversion Hx.
    - exact Hf.
    - cbn [mbind res_bind]. destruct (by_pos_ok u v Hu Hv Eh) as (x & y & -> & Hsw & Hx & Hy & E & A). cbn [mbind res_bind fst snd].
      rewrite (vget_ok _ _ _ (d_pos _ _ _ _ _ _ _ _ _ _ Hd _ Hx)). cbn [mbind res_bind]. rewrite (vget_ok _ _ _ (d_pos _ _ _ _ _ _ _ _ _ _ Hd _ Hy)). cbn [mbind res_bind].
      destruct (apply_range_ok e op idm mapping comp L ML t1 a1 I1 (pos x) (pos y + 1) f) as (t2 & -> & I2).
      { rewrite (li_n _ _ _ _ _ _ I1), Ha1. apply seg_bounds; auto. }
      cbn [mbind res_bind]. destruct (seg_mapped x y Hx Hy A E a1 f Ha1) as [M2 Ha2].
      assert (pathp u0 v0 (l0 ++ seg x y)) as HP by (apply Hl0; eapply pathp_swap; [| |exact Hsw|]; [assumption..|]; eapply pathp_chain; eauto).
      eexists t2, _, (l0 ++ seg x y). split; [reflexivity|]. split; [exact I2|]. split; [exact Ha2|]. split; [exact HP|].
      pose proof (pathp_NoDup _ _ _ _ HP) as Hnd. apply NoDup_app in Hnd as (_ & Hdis & _).
      eapply mapped_ext; [|eapply mapped_app; [exact M1|exact M2|exact Hdis|]].
      + intros z. cbv beta. rewrite elem_of_app. reflexivity.
      + intros z. cbv beta. destruct (decide (z ∈ l0)); auto.
  Qed.

  (** *** The visiting order *)
  Context (ord : list nat) (Hord : forall k v, ord !! k = Some v <-> C v /\ pos v = k).
  Lemma ord_ok : comp_order g root ord.
  Proof.
    split; [|split].
    - apply NoDup_alt. intros i j x Hi Hj. apply Hord in Hi as [_ <-]. apply Hord in Hj as [_ <-]. reflexivity.
    - intros x. rewrite elem_of_list_lookup. split; [intros [k Hk]; apply Hord in Hk; apply Hk|]. intros Hx. exists (pos x). apply Hord. auto.
    - intros k u Hk. apply Hord in Hk as [Hu <-]. exists (posr u - pos u). intros j w Hj. apply Hord in Hj as [Hw <-].
      rewrite (ancestor_iff _ _ _ _ _ Ht u w Hw), <- (d_nest _ _ _ _ _ _ _ _ _ _ Hd u w Hu Hw). lia.
  Qed.
  Lemma ord_length : length ord = m.
  Proof.
    apply Permutation_length, NoDup_Permutation; [apply ord_ok|exact Hvn|]. intros x. rewrite Hvs. apply ord_ok.
  Qed.

  Lemma mapped_iff (Q1 Q2 : nat -> Prop) f w w1 : (forall x, Q2 x <-> Q1 x) -> mapped mapping Q1 f w w1 -> mapped mapping Q2 f w w1.
  Proof. intros HQ [L1 H1]. split; [exact L1|]. intros x y Hx. rewrite HQ. apply H1. exact Hx. Qed.
  Lemma walk_all u v l x : walk g u v l -> C u -> x ∈ l -> C x.
  Proof. intros W Hu Hx. pose proof (walk_reached g root u v l Hu W) as H. rewrite Forall_forall in H. apply H. exact Hx. Qed.
  (** The range of a subtree; it is empty for a vertex that is not reached. *)
  Lemma posr_get u : u < n -> exists r, h_posr h !! u = Some r /\ pos u <= r <= m /\ forall x, C x -> ancestor g root u x <-> pos u <= pos x < r.
  Proof.
    intros Hu. destruct (reached_dec g root T u) as [H|H].
    - exists (posr u). split; [apply (d_posr _ _ _ _ _ _ _ _ _ _ Hd u H)|]. pose proof (d_lt _ _ _ _ _ _ _ _ _ _ Hd u H).
      pose proof (proj2 (d_nest _ _ _ _ _ _ _ _ _ _ Hd u u H H) (anc_refl par u)). split; [lia|].
      intros x Hx. rewrite (ancestor_iff _ _ _ _ _ Ht u x Hx). symmetry. apply (d_nest _ _ _ _ _ _ _ _ _ _ Hd); auto.
    - exists 0. destruct (d_out _ _ _ _ _ _ _ _ _ _ Hd u Hu H) as (_ & _ & _ & _ & ->). rewrite (d_pos_out _ _ _ _ _ _ _ _ _ _ Hd u Hu H).
      split; [reflexivity|]. split; [lia|]. intros x Hx. split; [|lia]. intros A. exfalso. apply H. destruct Hx as [l Hl].
      apply (walk_all root x l); [exact Hl|apply (t_root _ _ _ _ _ Ht)|apply A; exact Hl].
  Qed.

  Record hinv (x : hld S F) (w : list S) : Prop := {
    hi_tree : hd_tree x = h;
    hi_data : exists a, LInv (hd_data x) a /\ length a = n /\ w = wof a }.

  Lemma fuel_enough u v : C u -> C v -> light u + light v < 2 * Nat.log2 n + 1.
  Proof.
    intros Hu Hv. pose proof (light_log _ _ _ _ _ Ht _ Hvs Hvn _ _ _ _ Hd u Hu). pose proof (light_log _ _ _ _ _ Ht _ Hvs Hvn _ _ _ _ Hd v Hv).
    pose proof (Nat.log2_le_mono _ _ (m_le _ _ _ _ _ Ht vs Hvs Hvn)). lia.
  Qed.
  Lemma path_fuel_enough t : 2 * Nat.log2 n + 1 <= path_fuel (Hld t h : hld S F).
  Proof.
    unfold path_fuel. cbn [hd_tree]. rewrite (hw_pos _ _ (d_wf _ _ _ _ _ _ _ _ _ _ Hd)).
    pose proof n_pos. pose proof (Nat.log2_lt_lin n). lia.
  Qed.

  Lemma root_dist v d : C v -> is_dist g root v d -> d = dep v.
  Proof.
    intros Hv [(l & W & Hl) Hmin]. pose proof (t_root _ _ _ _ _ Ht) as Hr.
    pose proof (dist_ok _ _ _ _ _ Ht root v root Hr Hv (lcap_anc par root v (anc_root _ _ _ _ _ Ht v Hv))) as [(l' & W' & Hl') Hmin'].
    rewrite (t_root_dep _ _ _ _ _ Ht) in *. specialize (Hmin _ W'). specialize (Hmin' _ W). lia.
  Qed.
  Lemma seg_0 x y : C y -> anc x y -> seg x y !! 0 = Some x.
  Proof.
    intros Hy A. destruct (lookup_lt_is_Some_2 (seg x y) 0) as [z Hz]; [rewrite seg_length; lia|].
    destruct (seg_lookup _ _ _ _ _ Ht x y 0 z Hy A Hz) as (A1 & A2 & D). rewrite Hz. f_equal. symmetry. assert (C z) as Hzn by (eapply anc_lt; [exact Ht|exact Hy|exact A2]).
    eapply anc_dep_eq; [exact Ht|exact Hzn|exact A1|lia].
  Qed.
  Lemma seg_descending x y : C x -> C y -> anc x y -> head x = head y -> descending g root ord (seg x y).
  Proof.
    intros Hx Hy A E. split; [|split].
    - intros E0. pose proof (seg_length par dep x y) as Hl. rewrite E0 in Hl. discriminate.
    - exists (pos x). intros i z Hi. destruct (seg_pos_lookup _ _ _ _ _ Ht _ _ _ _ _ Hd x y i z Hx Hy A E Hi) as [Hz Hp]. apply Hord. auto.
    - intros i z1 z2 H1 H2. destruct (seg_lookup _ _ _ _ _ Ht x y _ _ Hy A H1) as (B1 & B2 & B3). destruct (seg_lookup _ _ _ _ _ Ht x y _ _ Hy A H2) as (C1 & C2 & C3).
      assert (C z1) as Hz1 by (eapply anc_lt; [exact Ht|exact Hy|exact B2]). assert (C z2) as Hz2 by (eapply anc_lt; [exact Ht|exact Hy|exact C2]).
      assert (anc z1 z2) as A12 by (eapply anc_of_dep; [exact Ht|exact Hy|exact B2|exact C2|lia]).
      split; [|apply (ancestor_iff _ _ _ _ _ Ht); auto]. apply (edge_iff _ _ _ _ _ Ht); [exact Hz1|]. split; [exact Hz2|]. left.
      apply (anc_split _ _ _ _ _ Ht) in A12 as [->|(c & Hc & Ac)]; [lia| |exact Hz2].
      pose proof (child_dep _ _ _ _ _ Ht _ _ Hc). rewrite <- (anc_dep_eq _ _ _ _ _ Ht c z2 Hz2 Ac ltac:(lia)). exact Hc.
  Qed.
  Lemma pieces_by_pieces ps : Forall piece ps -> falling ps -> length ps <= 2 * Nat.log2 n + 1 ->
    exists bs, pieces ps = concat bs /\ length bs <= 2 * Nat.log2 n + 1 /\ Forall (descending g root ord) bs /\
    forall i j b c x y dx dy, i < j -> bs !! i = Some b -> bs !! j = Some c -> b !! 0 = Some x -> c !! 0 = Some y ->
      is_dist g root x dx -> is_dist g root y dy -> dy <= dx.
  Proof.
    intros Hps Hfall Hlen. exists (map (fun p => seg (fst p) (snd p)) ps). split; [reflexivity|]. split; [rewrite map_length; exact Hlen|]. split.
    - apply Forall_map. eapply Forall_impl; [exact Hps|]. intros p (P1 & P2 & P3 & P4). apply seg_descending; auto.
    - intros i j b c x y dx dy Hij Hi Hj Hx Hy Dx Dy. rewrite Forall_forall in Hps.
      apply list_lookup_fmap_inv in Hi as (p & -> & Hi). apply list_lookup_fmap_inv in Hj as (q & -> & Hj).
      destruct (Hps p (elem_of_list_lookup_2 _ _ _ Hi)) as (P1 & P2 & P3 & _). destruct (Hps q (elem_of_list_lookup_2 _ _ _ Hj)) as (Q1 & Q2 & Q3 & _).
      rewrite seg_0 in Hx, Hy by auto. injection Hx as <-. injection Hy as <-. apply root_dist in Dx as ->; [|exact P1]. apply root_dist in Dy as ->; [|exact Q1]. exact (Hfall i j p q Hij Hi Hj).
  Qed.

  (** *** Path calls with a vertex that is not reached *)
  Lemma stands_exists u : exists u', stands g root u u' /\ C u'.
  Proof.
    destruct (reached_dec g root T u) as [H|H]; [exists u|exists root]; split; auto; [left; auto|right; auto|apply (t_root _ _ _ _ _ Ht)].
  Qed.
  Lemma stands_pos u u' : u < n -> stands g root u u' -> h_pos h !! u = h_pos h !! u'.
  Proof.
    intros Hu [[_ ->]|[H ->]]; [reflexivity|]. rewrite (pos_get u Hu), (pos_get root) by (apply (C_lt _ _ _ _ _ Ht), (t_root _ _ _ _ _ Ht)).
    rewrite pos_root, (d_pos_out _ _ _ _ _ _ _ _ _ _ Hd u Hu H). reflexivity.
  Qed.
  Lemma out_head u : u < n -> ~ C u -> h_head h !! u = Some 0.
  Proof. intros Hu H. apply (d_out _ _ _ _ _ _ _ _ _ _ Hd u Hu H). Qed.
  Lemma root_head : h_head h !! root = Some root.
  Proof. rewrite (d_head _ _ _ _ _ _ _ _ _ _ Hd root (t_root _ _ _ _ _ Ht)), (head_root _ _ _ _ _ Ht). reflexivity. Qed.
  Lemma vget_eq {A} (l : list A) i j : l !! i = l !! j -> vget l i = vget l j.
  Proof. intros H. unfold vget. rewrite H. reflexivity. Qed.
  Definition same (u u' : nat) : Prop := h_head h !! u = h_head h !! u' /\ h_pos h !! u = h_pos h !! u'.
  Lemma climb_same u u' v v' : same u u' -> same v v' ->
    match climb h u v, climb h u' v' with
    | Ok None, Ok None | Panic, Panic | Diverge, Diverge => True
    | Ok (Some (a, b)), Ok (Some (a', b')) => same a a' /\ same b b'
    | _, _ => False
    end.
  Proof.
    intros A B. unfold climb. rewrite (vget_eq _ u u' (proj1 A)), (vget_eq _ v v' (proj1 B)).
    destruct (vget (h_head h) u') as [a| |]; cbn [mbind res_bind]; auto. destruct (vget (h_head h) v') as [b| |]; cbn [mbind res_bind]; auto.
    destruct (a =? b); [exact I|]. destruct (vget (h_dep h) a) as [c| |]; cbn [mbind res_bind]; auto. destruct (vget (h_dep h) b) as [d| |]; cbn [mbind res_bind]; auto.
    destruct (c <? d); auto.
  Qed.
  Lemma by_pos_same u u' v v' : h_pos h !! u = h_pos h !! u' -> h_pos h !! v = h_pos h !! v' ->
    match by_pos h u v, by_pos h u' v' with
    | Panic, Panic | Diverge, Diverge => True
    | Ok (a, b), Ok (a', b') => h_pos h !! a = h_pos h !! a' /\ h_pos h !! b = h_pos h !! b'
    | _, _ => False
    end.
  Proof.
    intros A B. unfold by_pos. rewrite (vget_eq _ u u' A), (vget_eq _ v v' B).
    destruct (vget (h_pos h) u') as [a| |]; cbn [mbind res_bind]; auto. destruct (vget (h_pos h) v') as [b| |]; cbn [mbind res_bind]; auto.
    destruct (b <? a); auto.
  Qed.
  Lemma prod_end u u' v v' (t : lazytree S F) (acc : S) : h_pos h !! u = h_pos h !! u' -> h_pos h !! v = h_pos h !! v' ->
    (uv ← by_pos h u v; l ← vget (h_pos h) uv.1; r ← vget (h_pos h) uv.2; y ← lt_prod e op idm mapping comp t l (r + 1); let '(t, z) := y in Ok (Hld t h, op acc z)) =
    (uv ← by_pos h u' v'; l ← vget (h_pos h) uv.1; r ← vget (h_pos h) uv.2; y ← lt_prod e op idm mapping comp t l (r + 1); let '(t, z) := y in Ok (Hld t h, op acc z)).
  Proof.
    intros A B. pose proof (by_pos_same u u' v v' A B) as H. destruct (by_pos h u v) as [[a b]| |], (by_pos h u' v') as [[a' b']| |]; try contradiction; [|reflexivity..].
    cbn [mbind res_bind fst snd]. rewrite (vget_eq _ a a' (proj1 H)), (vget_eq _ b b' (proj2 H)). reflexivity.
  Qed.
  Lemma apply_end u u' v v' (t : lazytree S F) f : h_pos h !! u = h_pos h !! u' -> h_pos h !! v = h_pos h !! v' ->
    (uv ← by_pos h u v; l ← vget (h_pos h) uv.1; r ← vget (h_pos h) uv.2; t ← lt_apply_range op idm mapping comp t l (r + 1) f; Ok (Hld t h)) =
    (uv ← by_pos h u' v'; l ← vget (h_pos h) uv.1; r ← vget (h_pos h) uv.2; t ← lt_apply_range op idm mapping comp t l (r + 1) f; Ok (Hld t h)).
  Proof.
    intros A B. pose proof (by_pos_same u u' v v' A B) as H. destruct (by_pos h u v) as [[a b]| |], (by_pos h u' v') as [[a' b']| |]; try contradiction; [|reflexivity..].
    cbn [mbind res_bind fst snd]. rewrite (vget_eq _ a a' (proj1 H)), (vget_eq _ b b' (proj2 H)). reflexivity.
  Qed.
  Lemma path_prod_step_same u u' v v' t acc : same u u' -> same v v' ->
    match path_prod_step e op idm mapping comp h (u, v, t, acc), path_prod_step e op idm mapping comp h (u', v', t, acc) with
    | Panic, Panic | Diverge, Diverge => True
    | Ok (inl (a, b, t1, x1)), Ok (inl (a', b', t2, x2)) | Ok (inr (a, b, t1, x1)), Ok (inr (a', b', t2, x2)) => same a a' /\ same b b' /\ t1 = t2 /\ x1 = x2
    | _, _ => False
    end.
  Proof.
    intros A B. unfold path_prod_step.
    pose proof (climb_same u u' v v' A B) as H. destruct (climb h u v) as [[[a b]|]| |], (climb h u' v') as [[[a' b']|]| |]; try contradiction; cbn [mbind res_bind]; [|auto..].
    destruct H as [Sa Sb]. rewrite (vget_eq _ a a' (proj1 Sa)), (vget_eq _ a a' (proj2 Sa)).
    destruct (vget (h_head h) a') as [hu| |]; cbn [mbind res_bind]; auto. destruct (vget (h_pos h) hu) as [l| |]; cbn [mbind res_bind]; auto.
    destruct (vget (h_pos h) a') as [r| |]; cbn [mbind res_bind]; auto. destruct (lt_prod e op idm mapping comp t l (r + 1)) as [[t2 z]| |]; cbn [mbind res_bind]; auto.
    destruct (vget (h_parent h) hu) as [q| |]; cbn [mbind res_bind]; auto. repeat split; apply Sb.
  Qed.
  Lemma path_prod_same fuel : forall u u' v v' t acc, same u u' -> same v v' ->
    match rloop fuel (path_prod_step e op idm mapping comp h) (u, v, t, acc), rloop fuel (path_prod_step e op idm mapping comp h) (u', v', t, acc) with
    | Panic, Panic | Diverge, Diverge => True
    | Ok (a, b, t1, x1), Ok (a', b', t2, x2) => same a a' /\ same b b' /\ t1 = t2 /\ x1 = x2
    | _, _ => False
    end.
  Proof.
    induction fuel as [|fuel IH]; intros u u' v v' t acc A B; cbn [rloop]; [exact I|].
    pose proof (path_prod_step_same u u' v v' t acc A B) as H.
    destruct (path_prod_step e op idm mapping comp h (u, v, t, acc)) as [[[[[a b] t1] x1]|[[[a b] t1] x1]]| |], (path_prod_step e op idm mapping comp h (u', v', t, acc)) as [[[[[a2 b2] t2] x2]|[[[a2 b2] t2] x2]]| |]; try contradiction; cbn [mbind res_bind]; auto.
    destruct H as (Sa & Sb & <- & <-). apply IH; assumption.
  Qed.
  Lemma apply_path_step_same f u u' v v' t : same u u' -> same v v' ->
    match apply_path_step op idm mapping comp h f (u, v, t), apply_path_step op idm mapping comp h f (u', v', t) with
    | Panic, Panic | Diverge, Diverge => True
    | Ok (inl (a, b, t1)), Ok (inl (a', b', t2)) | Ok (inr (a, b, t1)), Ok (inr (a', b', t2)) => same a a' /\ same b b' /\ t1 = t2
    | _, _ => False
    end.
  Proof.
    intros A B. unfold apply_path_step.
    pose proof (climb_same u u' v v' A B) as H. destruct (climb h u v) as [[[a b]|]| |], (climb h u' v') as [[[a' b']|]| |]; try contradiction; cbn [mbind res_bind]; [|auto..].
    destruct H as [Sa Sb]. rewrite (vget_eq _ a a' (proj1 Sa)), (vget_eq _ a a' (proj2 Sa)).
    destruct (vget (h_head h) a') as [hu| |]; cbn [mbind res_bind]; auto. destruct (vget (h_pos h) hu) as [l| |]; cbn [mbind res_bind]; auto.
    destruct (vget (h_pos h) a') as [r| |]; cbn [mbind res_bind]; auto. destruct (lt_apply_range op idm mapping comp t l (r + 1) f) as [t2| |]; cbn [mbind res_bind]; auto.
    destruct (vget (h_parent h) hu) as [q| |]; cbn [mbind res_bind]; auto. repeat split; apply Sb.
  Qed.
  Lemma apply_path_same f fuel : forall u u' v v' t, same u u' -> same v v' ->
    match rloop fuel (apply_path_step op idm mapping comp h f) (u, v, t), rloop fuel (apply_path_step op idm mapping comp h f) (u', v', t) with
    | Panic, Panic | Diverge, Diverge => True
    | Ok (a, b, t1), Ok (a', b', t2) => same a a' /\ same b b' /\ t1 = t2
    | _, _ => False
    end.
  Proof.
    induction fuel as [|fuel IH]; intros u u' v v' t A B; cbn [rloop]; [exact I|].
    pose proof (apply_path_step_same f u u' v v' t A B) as H.
    destruct (apply_path_step op idm mapping comp h f (u, v, t)) as [[[[a b] t1]|[[a b] t1]]| |], (apply_path_step op idm mapping comp h f (u', v', t)) as [[[[a2 b2] t2]|[[a2 b2] t2]]| |]; try contradiction; cbn [mbind res_bind]; auto.
    destruct H as (Sa & Sb & <-). apply IH; assumption.
  Qed.
  Lemma climb_none u v : u < n -> v < n -> ~ C u -> ~ C v -> climb h u v = Ok None /\ climb h root root = Ok None.
  Proof.
    intros Hu Hv U V. unfold climb. rewrite (vget_ok _ _ _ (out_head u Hu U)), (vget_ok _ _ _ (out_head v Hv V)), (vget_ok _ _ _ root_head). cbn [mbind res_bind].
    rewrite !Nat.eqb_refl. auto.
  Qed.
  Lemma path_stands u v u' v' (t : lazytree S F) : u < n -> v < n -> (root = 0 \/ (C u <-> C v)) -> stands g root u u' -> stands g root v v' ->
    path_prod e op idm mapping comp (Hld t h) u v = path_prod e op idm mapping comp (Hld t h) u' v' /\
    forall f, apply_path op idm mapping comp (Hld t h) u v f = apply_path op idm mapping comp (Hld t h) u' v' f.
  Proof.
    intros Hu Hv Hok Su Sv. pose proof (stands_pos u u' Hu Su) as Pu. pose proof (stands_pos v v' Hv Sv) as Pv.
    unfold path_prod, path_prod_fuel, apply_path, apply_path_fuel. cbn [hd_tree hd_data].
    change (path_fuel (Hld t h)) with (2 * length (h_pos h) + 1). rewrite Nat.add_1_r. generalize (2 * length (h_pos h)) as k. intros k.
    assert (same u u' /\ same v v' \/ ~ C u /\ ~ C v) as [[Sau Sav]|[U V]].
    { assert (root = 0 -> forall x x', x < n -> stands g root x x' -> same x x') as H0.
      { intros E x x' Hx Sx. split; [|apply stands_pos; assumption]. destruct Sx as [[_ ->]|[Hc ->]]; [reflexivity|]. rewrite (out_head x Hx Hc), root_head, E. reflexivity. }
      destruct Hok as [E|E]; [left; auto|]. destruct Su as [[Cu ->]|[Cu ->]]; destruct Sv as [[Cv ->]|[Cv ->]]; try tauto. left. split; split; reflexivity. }
    - split.
      + pose proof (path_prod_same (Datatypes.S k) u u' v v' t e Sau Sav) as H.
        destruct (rloop _ _ (u, v, t, e)) as [[[[a b] t1] x1]| |], (rloop _ _ (u', v', t, e)) as [[[[a' b'] t2] x2]| |]; try contradiction; [|reflexivity..].
        destruct H as ([_ Sa] & [_ Sb] & <- & <-). cbn [mbind res_bind]. apply prod_end; assumption.
      + intros f. pose proof (apply_path_same f (Datatypes.S k) u u' v v' t Sau Sav) as H.
        destruct (rloop _ _ (u, v, t)) as [[[a b] t1]| |], (rloop _ _ (u', v', t)) as [[[a' b'] t2]| |]; try contradiction; [|reflexivity..].
        destruct H as ([_ Sa] & [_ Sb] & <-). cbn [mbind res_bind]. apply apply_end; assumption.
    - destruct (climb_none u v Hu Hv U V) as [C1 C2]. destruct Su as [[? _]|[_ ->]]; [contradiction|]. destruct Sv as [[? _]|[_ ->]]; [contradiction|].
      cbn [rloop]. split.
      + assert (forall x y, climb h x y = Ok None -> path_prod_step e op idm mapping comp h (x, y, t, e) = Ok (inr (x, y, t, e))) as Hs
          by (intros x y E; unfold path_prod_step; rewrite E; reflexivity).
        rewrite (Hs _ _ C1), (Hs _ _ C2). cbn [mbind res_bind]. apply prod_end; assumption.
      + intros f. assert (forall x y, climb h x y = Ok None -> apply_path_step op idm mapping comp h f (x, y, t) = Ok (inr (x, y, t))) as Hs
          by (intros x y E; unfold apply_path_step; rewrite E; reflexivity).
        rewrite (Hs _ _ C1), (Hs _ _ C2). cbn [mbind res_bind]. apply apply_end; assumption.
  Qed.

  (** *** A path call between a reached vertex and another, when vertex 0 is not reached, never returns *)
  Definition one (u v : nat) : Prop := u < n /\ v < n /\ (C u /\ ~ C v \/ ~ C u /\ C v).
  Lemma climb_one u v : ~ C 0 -> one u v -> exists p q hp l r p',
    climb h u v = Ok (Some (p, q)) /\ vget (h_head h) p = Ok hp /\ vget (h_pos h) hp = Ok l /\ vget (h_pos h) p = Ok r /\ l <= r + 1 <= n /\
    vget (h_parent h) hp = Ok p' /\ one p' q.
  Proof.
    intros H0 (Hu & Hv & Hone). pose proof n_pos as Hn. destruct (d_out _ _ _ _ _ _ _ _ _ _ Hd 0 Hn H0) as (P0 & D0 & _ & Q0 & _).
    assert (forall x, C x -> C (head x)) as Hh by (intros x Hx; eapply head_lt; eauto).
    assert (forall x, x < n -> ~ C x -> exists l r p', vget (h_head h) x = Ok 0 /\ vget (h_pos h) 0 = Ok l /\ vget (h_pos h) x = Ok r /\ l <= r + 1 <= n /\
      vget (h_parent h) 0 = Ok p' /\ p' < n /\ ~ C p') as Out.
    { intros x Hx Hc. destruct (d_out _ _ _ _ _ _ _ _ _ _ Hd x Hx Hc) as (_ & _ & A & B & _). exists 0, 0, 0.
      rewrite (vget_ok _ _ _ A), (vget_ok _ _ _ B), (vget_ok _ _ _ P0), (vget_ok _ _ _ Q0). repeat split; auto; lia. }
    assert (forall x, C x -> exists l r p', vget (h_head h) x = Ok (head x) /\ vget (h_pos h) (head x) = Ok l /\ vget (h_pos h) x = Ok r /\ l <= r + 1 <= n /\
      vget (h_parent h) (head x) = Ok p' /\ p' < n /\ C p') as In.
    { intros x Hx. exists (pos (head x)), (pos x), (par (head x)).
      rewrite (vget_ok _ _ _ (d_head _ _ _ _ _ _ _ _ _ _ Hd x Hx)), (vget_ok _ _ _ (d_pos _ _ _ _ _ _ _ _ _ _ Hd _ (Hh x Hx))),
        (vget_ok _ _ _ (d_pos _ _ _ _ _ _ _ _ _ _ Hd _ Hx)), (vget_ok _ _ _ (d_parent _ _ _ _ _ _ _ _ _ _ Hd _ (Hh x Hx))).
      assert (anc (head x) x) as A1 by (eapply head_anc; eauto). assert (head (head x) = head x) as E1 by (eapply head_head; eauto).
      split; [reflexivity|]. split; [reflexivity|]. split; [reflexivity|]. split; [apply seg_bounds; auto|]. split; [reflexivity|].
      assert (C (par (head x))) by (apply (par_lt _ _ _ _ _ Ht), Hh, Hx). split; [eapply C_lt; eauto|assumption]. }
    assert (forall x y, C x -> y < n -> ~ C y -> (exists d, climb h x y = Ok (Some (if d <? 0 then (y, x) else (x, y)))) /\ exists d, climb h y x = Ok (Some (if 0 <? d then (x, y) else (y, x)))) as Cl.
    { intros x y Hx Hy Hyc. unfold climb. rewrite (vget_ok _ _ _ (d_head _ _ _ _ _ _ _ _ _ _ Hd x Hx)), (vget_ok _ _ _ (out_head y Hy Hyc)). cbn [mbind res_bind].
      assert (head x <> 0) as Hne by (intros E; apply H0; rewrite <- E; apply Hh, Hx).
      rewrite (proj2 (Nat.eqb_neq _ _) Hne), (proj2 (Nat.eqb_neq _ _) (not_eq_sym Hne)). rewrite (vget_ok _ _ _ D0), (vget_ok _ _ _ (d_dep _ _ _ _ _ _ _ _ _ _ Hd _ (Hh x Hx))). cbn [mbind res_bind].
      split; eexists; reflexivity. }
    destruct Hone as [[Cu Cv]|[Cu Cv]].
    - destruct (proj1 (Cl u v Cu Hv Cv)) as [d ->]. cbn [Nat.ltb Nat.leb]. destruct (d <? 0) eqn:E; [apply Nat.ltb_lt in E; lia|].
      destruct (In u Cu) as (l & r & p' & A1 & A2 & A3 & A4 & A5 & A6 & A7). exists u, v, (head u), l, r, p'. repeat split; auto; lia.
    - destruct (proj2 (Cl v u Cv Hu Cu)) as [d ->]. destruct (0 <? d).
      + destruct (In v Cv) as (l & r & p' & A1 & A2 & A3 & A4 & A5 & A6 & A7). exists v, u, (head v), l, r, p'. repeat split; auto; lia.
      + destruct (Out u Hu Cu) as (l & r & p' & A1 & A2 & A3 & A4 & A5 & A6 & A7). exists u, v, 0, l, r, p'. repeat split; auto; lia.
  Qed.
  Lemma path_prod_never a t u v fuel : LInv t a -> length a = n -> ~ C 0 -> one u v -> path_prod_fuel e op idm mapping comp fuel (Hld t h) u v = Diverge.
  Proof.
    intros I Ha H0 Hone. unfold path_prod_fuel. cbn [hd_tree hd_data].
    enough (forall acc, rloop fuel (path_prod_step e op idm mapping comp h) (u, v, t, acc) = Diverge) as H by (rewrite H; reflexivity). intros acc.
    revert u v t acc I Hone. induction fuel as [|fuel IH]; intros u v t acc I Hone; cbn [rloop]; [reflexivity|].
    destruct (climb_one u v H0 Hone) as (p & q & hp & l & r & p' & E1 & E2 & E3 & E4 & Hlr & E5 & Hone').
    destruct (prod_ok e op idm mapping comp L ML t a I l (r + 1)) as (t2 & E & I2); [rewrite (li_n _ _ _ _ _ _ I), Ha; exact Hlr|].
    assert (exists acc', path_prod_step e op idm mapping comp h (u, v, t, acc) = Ok (inl (p', q, t2, acc'))) as [acc' ->].
    { unfold path_prod_step. rewrite E1. cbn [mbind res_bind]. rewrite E2. cbn [mbind res_bind]. rewrite E3. cbn [mbind res_bind]. rewrite E4. cbn [mbind res_bind].
      rewrite E. cbn [mbind res_bind]. rewrite E5. cbn [mbind res_bind]. eexists. reflexivity. }
    cbn [mbind res_bind]. apply IH; assumption.
  Qed.
  Lemma apply_path_never a t u v f fuel : LInv t a -> length a = n -> ~ C 0 -> one u v -> apply_path_fuel op idm mapping comp fuel (Hld t h) u v f = Diverge.
  Proof.
    intros I Ha H0 Hone. unfold apply_path_fuel. cbn [hd_tree hd_data].
    enough (rloop fuel (apply_path_step op idm mapping comp h f) (u, v, t) = Diverge) as -> by reflexivity.
    revert u v t a I Ha Hone. induction fuel as [|fuel IH]; intros u v t a I Ha Hone; cbn [rloop]; [reflexivity|].
    destruct (climb_one u v H0 Hone) as (p & q & hp & l & r & p' & E1 & E2 & E3 & E4 & Hlr & E5 & Hone').
    destruct (apply_range_ok e op idm mapping comp L ML t a I l (r + 1) f) as (t2 & E & I2); [rewrite (li_n _ _ _ _ _ _ I), Ha; exact Hlr|].
    assert (apply_path_step op idm mapping comp h f (u, v, t) = Ok (inl (p', q, t2))) as ->.
    { unfold apply_path_step. rewrite E1. cbn [mbind res_bind]. rewrite E2. cbn [mbind res_bind]. rewrite E3. cbn [mbind res_bind]. rewrite E4. cbn [mbind res_bind].
      rewrite E. cbn [mbind res_bind]. rewrite E5. reflexivity. }
    cbn [mbind res_bind]. eapply IH; [exact I2| |exact Hone']. unfold map_range. rewrite imap_length. exact Ha.
  Qed.

  (** *** Vertices out of range *)
  Lemma pos_panic u : n <= u -> vget (h_pos h) u = Panic.
  Proof. intros. apply vget_panic. rewrite (hw_pos _ _ (d_wf _ _ _ _ _ _ _ _ _ _ Hd)). assumption. Qed.
  Lemma climb_panic u v : n <= u \/ n <= v -> climb h u v = Panic.
  Proof.
    intros H. unfold climb. pose proof (hw_head _ _ (d_wf _ _ _ _ _ _ _ _ _ _ Hd)) as Hl. destruct (le_lt_dec n u) as [Hu|Hu].
    - rewrite (vget_panic (h_head h) u) by lia. reflexivity.
    - destruct (vget_lt (h_head h) u) as (x & -> & _); [lia|]. cbn [mbind res_bind]. rewrite (vget_panic (h_head h) v) by lia. reflexivity.
  Qed.
  Lemma step_panic x w o : hinv x w -> out_of_range g o -> hld_step e op idm mapping comp x o = Panic.
  Proof.
    destruct x as [t h']. intros [E _] Ho. cbn [hd_tree] in E. subst h'. destruct o as [u v f|u v|u f|u|u|u y|o]; cbn [hld_step out_of_range] in *; [| | | | | |contradiction].
    - unfold apply_path, apply_path_fuel, path_fuel. cbn [hd_tree hd_data]. rewrite Nat.add_1_r. cbn [rloop].
      assert (apply_path_step op idm mapping comp h f (u, v, t) = Panic) as -> by (unfold apply_path_step; rewrite climb_panic by exact Ho; reflexivity). reflexivity.
    - unfold path_prod, path_prod_fuel, path_fuel. cbn [hd_tree hd_data]. rewrite Nat.add_1_r. cbn [rloop].
      assert (path_prod_step e op idm mapping comp h (u, v, t, e) = Panic) as -> by (unfold path_prod_step; rewrite climb_panic by exact Ho; reflexivity). reflexivity.
    - unfold apply_subtree. cbn [hd_tree]. rewrite pos_panic by exact Ho. reflexivity.
    - unfold subtree_prod. cbn [hd_tree]. rewrite pos_panic by exact Ho. reflexivity.
    - unfold hld_get. cbn [hd_tree]. rewrite pos_panic by exact Ho. reflexivity.
    - unfold hld_set. cbn [hd_tree]. rewrite pos_panic by exact Ho. reflexivity.
  Qed.

  Lemma step_ok x w o : hinv x w -> usable g root o ->
    exists x' w' out, hld_step e op idm mapping comp x o = Ok (x', out) /\ comp_step e op mapping g root ord (by_pieces g root ord) w o w' out /\ hinv x' w'.
  Proof.
    destruct x as [t h']. intros [Eh (a & I & Ha & ->)] Hok. cbn [hd_tree hd_data] in *. subst h'.
    pose proof (li_n _ _ _ _ _ _ I) as Hn. pose proof (m_le _ _ _ _ _ Ht vs Hvs Hvn) as Hm.
    assert (forall t' a', LInv t' a' -> length a' = n -> hinv (Hld t' h) (wof a')) as HI by (intros t' a' I' Ha'; split; cbn; eauto).
    destruct o as [u v f|u v|u f|u|u|u y|o]; cbn [hld_step comp_step usable] in *.
    - destruct Hok as (Hu0 & Hv0 & Hok). destruct (stands_exists u) as (u' & Su & Hu). destruct (stands_exists v) as (v' & Sv & Hv).
      rewrite (proj2 (path_stands u v u' v' t Hu0 Hv0 Hok Su Sv) f).
      pose proof (path_fuel_enough t). pose proof (fuel_enough u' v' Hu Hv).
      destruct (apply_path_ok a t u' v' f (path_fuel (Hld t h)) I Ha Hu Hv ltac:(lia)) as (t' & a' & l & E & I' & Ha' & (l1 & Hl1 & HP) & M).
      unfold apply_path. rewrite E. cbn [mbind res_bind]. exists (Hld t' h), (wof a'), HUnit. split; [reflexivity|]. split; [|auto]. split; [reflexivity|].
      exists u', v', l1. split; [exact Su|]. split; [exact Sv|]. split; [exact Hl1|]. eapply mapped_iff; [|apply cmapped_mapped; [exact Ha|exact Ha'|exact M]]. intros z. cbn. split.
      + intros (y & Hy & Hs). exists y. rewrite <- HP. split; [|auto]. apply (walk_all u' v' l1); [apply Hl1|exact Hu|exact Hy].
      + intros (y & _ & Hy & Hs). exists y. rewrite HP. auto.
    - destruct Hok as (Hu0 & Hv0 & Hok). destruct (stands_exists u) as (u' & Su & Hu). destruct (stands_exists v) as (v' & Sv & Hv).
      rewrite (proj1 (path_stands u v u' v' t Hu0 Hv0 Hok Su Sv)).
      pose proof (path_fuel_enough t). pose proof (fuel_enough u' v' Hu Hv).
      destruct (path_prod_ok a t u' v' (path_fuel (Hld t h)) I Ha Hu Hv ltac:(lia)) as (t' & ps & E & I' & (l1 & Hl1 & HP) & Hps & Hfall & Hlen).
      unfold path_prod. rewrite E. cbn [mbind res_bind]. eexists _, (wof a), _. split; [reflexivity|]. split; [|auto]. split; [reflexivity|].
      exists u', v', l1, (pieces ps). split; [exact Su|]. split; [exact Sv|]. split; [exact Hl1|]. split; [|reflexivity].
      split; [symmetry; exact HP|]. apply pieces_by_pieces; auto. lia.
    - unfold apply_subtree. cbn [hd_tree hd_data].
      rewrite (vget_ok _ _ _ (pos_get u Hok)). cbn [mbind res_bind]. destruct (posr_get u Hok) as (r & Er & Hr & HA). rewrite (vget_ok _ _ _ Er). cbn [mbind res_bind].
      destruct (apply_range_ok e op idm mapping comp L ML t a I (pos u) r f) as (t' & -> & I'); [lia|]. cbn [mbind res_bind].
      destruct (range_mapped a (pos u) r f (ancestor g root u) Ha) as [M Ha'].
      { intros z Hz. apply HA. exact Hz. }
      eexists _, _, _. split; [reflexivity|]. split; [|apply HI; [exact I'|exact Ha']]. split; [reflexivity|]. apply cmapped_mapped; auto.
    - unfold subtree_prod. cbn [hd_tree hd_data].
      rewrite (vget_ok _ _ _ (pos_get u Hok)). cbn [mbind res_bind]. destruct (posr_get u Hok) as (r & Er & Hr & HA). rewrite (vget_ok _ _ _ Er). cbn [mbind res_bind].
      destruct (prod_ok e op idm mapping comp L ML t a I (pos u) r) as (t' & -> & I'); [lia|]. cbn [mbind res_bind fst snd].
      eexists _, (wof a), _. split; [reflexivity|]. split; [|auto]. split; [reflexivity|]. exists (slice ord (pos u) r). split; [|split].
      + unfold slice. etrans; [apply sublist_take|apply sublist_drop].
      + intros z. rewrite elem_of_list_lookup. split.
        * intros [i Hi]. pose proof (lookup_lt_Some _ _ _ Hi) as Hil. rewrite slice_length in Hil by (rewrite ord_length; lia).
          rewrite slice_lookup in Hi by lia. apply Hord in Hi as [Hz Hp]. split; [exact Hz|]. apply HA; [exact Hz|lia].
        * intros [Hz A]. apply HA in A; [|exact Hz]. exists (pos z - pos u). rewrite slice_lookup by lia. apply Hord. split; [exact Hz|lia].
      + do 2 f_equal. rewrite (vals_slice a (slice ord (pos u) r) (pos u)); [|intros i z Hi|exact Ha].
        * rewrite slice_length by (rewrite ord_length; lia). f_equal. lia.
        * pose proof (lookup_lt_Some _ _ _ Hi) as Hil. rewrite slice_length in Hil by (rewrite ord_length; lia).
          rewrite slice_lookup in Hi by lia. apply Hord in Hi. exact Hi.
    - unfold hld_get. cbn [hd_tree hd_data]. rewrite (vget_ok _ _ _ (pos_get u Hok)). cbn [mbind res_bind].
      destruct (lookup_lt_is_Some_2 a (pos u)) as [y Hy]; [rewrite Ha; apply pos_lt; exact Hok|].
      destruct (get_ok e op idm mapping comp L ML t a I (pos u) y Hy) as (t' & -> & I'). cbn [mbind res_bind fst snd].
      eexists _, (wof a), _. split; [reflexivity|]. split; [|auto]. split; [reflexivity|]. exists y. rewrite wof_lookup by auto. auto.
    - unfold hld_set. cbn [hd_tree hd_data]. rewrite (vget_ok _ _ _ (pos_get u Hok)). cbn [mbind res_bind]. pose proof (pos_lt u Hok) as Hp.
      destruct (set_ok e op idm mapping comp L ML t a I (pos u) y) as (t' & -> & I'); [lia|]. cbn [mbind res_bind].
      assert (length (<[pos u:=y]> a) = n) as Ha' by (rewrite insert_length; exact Ha).
      eexists _, (wof (<[pos u:=y]> a)), _. split; [reflexivity|]. split; [|auto]. split; [reflexivity|]. split; [rewrite !wof_length; reflexivity|].
      intros v Hv. rewrite wof_length in Hv. rewrite !wof_lookup by auto. rewrite (shares_pos v u Hv Hok). split.
      + intros ->. apply list_lookup_insert. lia.
      + intros Hne. apply list_lookup_insert_ne. auto.
    - contradiction.
  Qed.

  Lemma run_ok ops : forall x w, hinv x w -> Forall (usable g root) ops ->
    exists x' w' outs, run (hld_step e op idm mapping comp) x ops = Ok (x', outs) /\ comp_run e op mapping g root ord (by_pieces g root ord) w ops w' outs /\ hinv x' w'.
  Proof.
    induction ops as [|o ops IH]; intros x w I Hok; cbn [run]; [exists x, w, []; split; [reflexivity|]; split; [constructor|exact I]|].
    apply Forall_cons in Hok as [Ho Hok]. destruct (step_ok x w o I Ho) as (x1 & w1 & out & -> & S1 & I1). cbn [mbind res_bind].
    destruct (IH x1 w1 I1 Hok) as (x2 & w2 & outs & -> & S2 & I2). cbn [mbind res_bind].
    exists x2, w2, (out :: outs). split; [reflexivity|]. split; [econstructor; eauto|exact I2].
  Qed.
End ops.

Lemma rloop_more {A B} (f : A -> res (A + B)) : forall k k' s r, rloop k f s = Ok r -> k <= k' -> rloop k' f s = Ok r.
Proof.
  induction k as [|k IH]; intros k' s r H Hk; [discriminate|]. destruct k' as [|k']; [lia|]. cbn [rloop] in *.
  destruct (f s) as [[s'|r']| |]; cbn [mbind res_bind] in *; try discriminate; [|exact H]. apply IH; [exact H|lia].
Qed.
