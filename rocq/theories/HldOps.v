(** Heavy-light decomposition: every call against one value per vertex. *)
From Verif Require Import Prelude UtilModel ArraySpec LazySpec LazyModel LazyTop TreeSpec TreeProof HldSpec HldModel HldTree HldProof.

Section ops.
  Context {S F : Type} (e : S) (op : S -> S -> S) (idm : F) (mapping : F -> S -> S) (comp : F -> F -> F).
  Context (L : monoid_laws e op) (ML : map_laws op idm mapping comp).
  Context (g : list (list nat)) (root : nat) (par dep : nat -> nat) (Ht : rtree g root par dep).
  Context (h : hl) (hv : nat -> option nat) (pos posr : nat -> nat) (Hd : decomp g root par dep h hv pos posr).
  Notation n := (length g).
  Notation anc := (anc par).
  Notation head := (headf par dep hv).
  Notation light := (light par dep hv).
  Notation seg := (seg par dep).
  Notation pathp := (pathp g).
  Notation LInv := (LInv e op idm mapping).
  Notation P := (mprod e op).

  (** The vertex values held by the array a of the positions. *)
  Definition wof (a : list S) : list S := map (fun v => default e (a !! pos v)) (seq 0 n).
  Lemma wof_length a : length (wof a) = n.
  Proof. unfold wof. rewrite map_length, seq_length. reflexivity. Qed.
  Lemma wof_lookup a v : length a = n -> v < n -> wof a !! v = a !! pos v.
  Proof.
    intros Ha Hv. unfold wof. change (map ?f ?l) with (f <$> l). rewrite list_lookup_fmap, lookup_seq_lt by exact Hv. cbn.
    destruct (lookup_lt_is_Some_2 a (pos v)) as [x ->]; [|reflexivity]. rewrite Ha. apply (d_lt _ _ _ _ _ _ _ _ Hd v Hv).
  Qed.
  Lemma vals_slice a l k (Hl : forall i x, l !! i = Some x -> x < n /\ pos x = k + i) : length a = n ->
    vals e (wof a) l = slice a k (k + length l).
  Proof.
    intros Ha. apply list_eq. intros i. unfold vals. change (map ?f ?l) with (f <$> l). rewrite list_lookup_fmap. destruct (l !! i) as [x|] eqn:E; cbn.
    - pose proof (lookup_lt_Some _ _ _ E). destruct (Hl i x E) as [Hx Hp]. rewrite slice_lookup by lia. rewrite wof_lookup by auto. rewrite Hp.
      destruct (lookup_lt_is_Some_2 a (k + i)) as [y ->]; [|reflexivity]. rewrite Ha, <- Hp. apply (d_lt _ _ _ _ _ _ _ _ Hd x Hx).
    - apply lookup_ge_None_1 in E. unfold slice. rewrite lookup_take_ge by lia. reflexivity.
  Qed.
  Lemma vals_seg a x y : length a = n -> x < n -> y < n -> anc x y -> head x = head y ->
    vals e (wof a) (seg x y) = slice a (pos x) (pos y + 1).
  Proof.
    intros Ha Hx Hy A E. rewrite (vals_slice a (seg x y) (pos x)); [|intros i z Hz; eapply seg_pos_lookup; eauto|exact Ha].
    rewrite seg_length. f_equal. pose proof (head_pos _ _ _ _ Ht _ _ _ _ Hd x Hx). pose proof (head_pos _ _ _ _ Ht _ _ _ _ Hd y Hy).
    pose proof (head_dep _ _ _ _ Ht _ _ _ _ Hd x Hx). pose proof (anc_dep _ _ _ _ Ht x y Hy A). rewrite E in *. lia.
  Qed.
  Lemma vals_app (w : list S) l1 l2 : vals e w (l1 ++ l2) = vals e w l1 ++ vals e w l2.
  Proof. apply map_app. Qed.

  Lemma range_mapped a l r f (Q : nat -> Prop) : length a = n -> (forall x, x < n -> Q x <-> l <= pos x < r) ->
    mapped mapping Q f (wof a) (wof (map_range (mapping f) l r a)) /\ length (map_range (mapping f) l r a) = n.
  Proof.
    intros Ha HQ. assert (length (map_range (mapping f) l r a) = n) as Hl by (unfold map_range; rewrite imap_length; exact Ha).
    split; [|exact Hl]. split; [rewrite !wof_length; reflexivity|]. intros x y Hxy.
    assert (x < n) as Hx by (apply lookup_lt_Some in Hxy; rewrite wof_length in Hxy; exact Hxy).
    rewrite wof_lookup in Hxy |- * by auto. unfold map_range. rewrite list_lookup_imap, Hxy. cbn. rewrite (HQ x Hx).
    destruct (Nat.leb_spec l (pos x)); destruct (Nat.ltb_spec (pos x) r); cbn; split; intros; try reflexivity; exfalso; lia.
  Qed.
  Lemma mapped_app (Q1 Q2 : nat -> Prop) f w w1 w2 : mapped mapping Q1 f w w1 -> mapped mapping Q2 f w1 w2 -> (forall x, Q1 x -> ~ Q2 x) -> (forall x, Q1 x \/ ~ Q1 x) ->
    mapped mapping (fun x => Q1 x \/ Q2 x) f w w2.
  Proof.
    intros [L1 H1] [L2 H2] Hdis Hdec. split; [congruence|]. intros x y Hx. destruct (H1 x y Hx) as [A B]. split.
    - intros [Hq|Hq].
      + apply (H2 x (mapping f y) (A Hq)). apply Hdis. exact Hq.
      + destruct (Hdec x) as [Hq1|Hq1]; [exfalso; exact (Hdis x Hq1 Hq)|]. apply (H2 x y (B Hq1)). exact Hq.
    - intros Hq. apply (H2 x y); [apply B|]; tauto.
  Qed.
  Lemma mapped_ext (Q1 Q2 : nat -> Prop) f w w1 : (forall x, Q1 x <-> Q2 x) -> mapped mapping Q1 f w w1 -> mapped mapping Q2 f w w1.
  Proof. intros HQ [L1 H1]. split; [exact L1|]. intros x y Hx. rewrite <- HQ. apply H1. exact Hx. Qed.
  Lemma mapped_refl (Q : nat -> Prop) f w : (forall x, ~ Q x) -> mapped mapping Q f w w.
  Proof. intros H. split; [reflexivity|]. intros x y Hx. split; [intros Hq; exfalso; exact (H x Hq)|auto]. Qed.

  (** *** One turn of the climbing loop *)
  Lemma climb_ok u v : u < n -> v < n ->
    (head u = head v /\ climb h u v = Ok None) \/
    exists u1 v1, climb h u v = Ok (Some (u1, v1)) /\ ((u1, v1) = (u, v) \/ (u1, v1) = (v, u)) /\ u1 < n /\ v1 < n /\
      head u1 < n /\ par (head u1) < n /\ ~ anc (head u1) v1 /\ light u1 = Datatypes.S (light (par (head u1))) /\
      dep (head v1) <= dep (head u1) /\ dep (par (head u1)) < dep (head u1).
  Proof.
    intros Hu Hv. unfold climb. rewrite (vget_ok _ _ _ (d_head _ _ _ _ _ _ _ _ Hd u Hu)). cbn [mbind res_bind].
    rewrite (vget_ok _ _ _ (d_head _ _ _ _ _ _ _ _ Hd v Hv)). cbn [mbind res_bind].
    destruct (Nat.eqb_spec (head u) (head v)) as [E|Hne]; [left; auto|right].
    pose proof (head_lt _ _ _ _ Ht _ _ _ _ Hd u Hu) as Hhu. pose proof (head_lt _ _ _ _ Ht _ _ _ _ Hd v Hv) as Hhv.
    rewrite (vget_ok _ _ _ (d_dep _ _ _ _ _ _ _ _ Hd _ Hhu)). cbn [mbind res_bind]. rewrite (vget_ok _ _ _ (d_dep _ _ _ _ _ _ _ _ Hd _ Hhv)). cbn [mbind res_bind].
    assert (forall x y, x < n -> y < n -> head x <> head y -> dep (head y) <= dep (head x) ->
      head x < n /\ par (head x) < n /\ ~ anc (head x) y /\ light x = Datatypes.S (light (par (head x))) /\
      dep (head y) <= dep (head x) /\ dep (par (head x)) < dep (head x)) as HH.
    { intros x y Hx Hy Hxy Hle. pose proof (head_lt _ _ _ _ Ht _ _ _ _ Hd x Hx) as Hhx. split; [exact Hhx|]. split; [apply (par_lt _ _ _ _ Ht); exact Hhx|].
      assert (~ anc (head x) y) as Hna.
      { intros A. apply Hxy. rewrite <- (head_head _ _ _ _ Ht _ _ _ _ Hd x Hx). eapply head_between; eauto.
        eapply anc_of_dep; [exact Ht|exact Hy|eapply head_anc; eauto|exact A|exact Hle]. }
      assert (head x <> root) as Hr by (intros Er; apply Hna; rewrite Er; apply (anc_root _ _ _ _ Ht); exact Hy).
      split; [exact Hna|]. split; [eapply light_climb; eauto|]. split; [exact Hle|]. pose proof (proj2 (t_par _ _ _ _ Ht _ Hhx Hr)). lia. }
    destruct (Nat.ltb_spec (dep (head u)) (dep (head v))).
    - exists v, u. split; [reflexivity|]. split; [auto|]. split; [exact Hv|]. split; [exact Hu|]. apply HH; auto. lia.
    - exists u, v. split; [reflexivity|]. split; [auto|]. split; [exact Hu|]. split; [exact Hv|]. apply HH; auto.
  Qed.
  Lemma by_pos_ok u v : u < n -> v < n -> head u = head v ->
    exists a b, by_pos h u v = Ok (a, b) /\ ((a, b) = (u, v) \/ (a, b) = (v, u)) /\ a < n /\ b < n /\ head a = head b /\ anc a b.
  Proof.
    intros Hu Hv E. unfold by_pos. rewrite (vget_ok _ _ _ (d_pos _ _ _ _ _ _ _ _ Hd u Hu)). cbn [mbind res_bind].
    rewrite (vget_ok _ _ _ (d_pos _ _ _ _ _ _ _ _ Hd v Hv)). cbn [mbind res_bind]. destruct (Nat.ltb_spec (pos v) (pos u)).
    - exists v, u. split; [reflexivity|]. split; [auto|]. split; [exact Hv|]. split; [exact Hu|]. split; [auto|]. eapply same_head_anc; eauto. lia.
    - exists u, v. split; [reflexivity|]. split; [auto|]. split; [exact Hu|]. split; [exact Hv|]. split; [auto|]. eapply same_head_anc; eauto.
  Qed.
  Lemma pathp_swap u v a b l : (a, b) = (u, v) \/ (a, b) = (v, u) -> pathp a b l -> pathp u v l.
  Proof. intros [E|E] Hp; injection E as -> ->; [exact Hp|]. eapply pathp_sym; eauto. Qed.

  Section range.
    Context (x y : nat) (Hx : x < n) (Hy : y < n) (A : anc x y) (E : head x = head y).
    Lemma seg_bounds : pos x <= pos y + 1 <= n.
    Proof.
      pose proof (proj2 (seg_pos _ _ _ _ Ht _ _ _ _ Hd x y y Hx Hy Hy A E) (conj A (anc_refl par y))) as H.
      pose proof (d_lt _ _ _ _ _ _ _ _ Hd y Hy). lia.
    Qed.
    Lemma seg_mapped a f : length a = n ->
      mapped mapping (fun z => z ∈ seg x y) f (wof a) (wof (map_range (mapping f) (pos x) (pos y + 1) a)) /\ length (map_range (mapping f) (pos x) (pos y + 1) a) = n.
    Proof.
      intros Ha. apply range_mapped; [exact Ha|]. intros z Hz. rewrite (elem_seg _ _ _ _ Ht _ _ z Hy A).
      rewrite <- (seg_pos _ _ _ _ Ht _ _ _ _ Hd x y z Hx Hy Hz A E). lia.
    Qed.
  End range.

  (** The pieces of a path, as pairs of the top and the bottom vertex. *)
  Definition piece (p : nat * nat) : Prop := fst p < n /\ snd p < n /\ anc (fst p) (snd p) /\ head (fst p) = head (snd p).
  Definition pieces (ps : list (nat * nat)) : list nat := concat (map (fun p => seg (fst p) (snd p)) ps).
  Definition falling (ps : list (nat * nat)) : Prop := forall i j p q, i < j -> ps !! i = Some p -> ps !! j = Some q -> dep (fst q) <= dep (fst p).
  Lemma pieces_snoc ps p : pieces (ps ++ [p]) = pieces ps ++ seg (fst p) (snd p).
  Proof. unfold pieces. rewrite map_app, concat_app. cbn. rewrite app_nil_r. reflexivity. Qed.
  Lemma falling_snoc ps p : falling ps -> Forall (fun q => dep (fst p) <= dep (fst q)) ps -> falling (ps ++ [p]).
  Proof.
    intros H Hp i j q r Hij Hi Hj. apply lookup_app_Some in Hj as [Hj|[Hj1 Hj2]].
    - rewrite lookup_app_l in Hi by (apply lookup_lt_Some in Hj; lia). eapply H; eauto.
    - apply list_lookup_singleton_Some in Hj2 as [Hj2 <-]. rewrite lookup_app_l in Hi by lia. rewrite Forall_forall in Hp. apply Hp. eapply elem_of_list_lookup_2; eauto.
  Qed.

  Lemma path_prod_ok a t u0 v0 fuel : LInv t a -> length a = n -> u0 < n -> v0 < n -> light u0 + light v0 < fuel ->
    exists t' ps, path_prod_fuel e op idm mapping comp fuel (Hld t h) u0 v0 = Ok (Hld t' h, P (vals e (wof a) (pieces ps))) /\ LInv t' a /\ pathp u0 v0 (pieces ps) /\
      Forall piece ps /\ falling ps /\ length ps <= light u0 + light v0 + 1.
  Proof.
    intros I Ha Hu0 Hv0 Hf. unfold path_prod_fuel. cbn [hd_tree hd_data].
    pose (J := fun (s : nat * nat * lazytree S F * S) => let '(u, v, t, acc) := s in
      u < n /\ v < n /\ LInv t a /\ exists ps, acc = P (vals e (wof a) (pieces ps)) /\ (forall l, pathp u v l -> pathp u0 v0 (pieces ps ++ l)) /\
      Forall piece ps /\ falling ps /\ length ps + light u + light v <= light u0 + light v0 /\
      Forall (fun p => dep (head u) <= dep (fst p) /\ dep (head v) <= dep (fst p) /\ (dep u <= dep (fst p) \/ dep v <= dep (fst p))) ps).
    destruct (rloop_inv J (fun s => J s /\ let '(u, v, _, _) := s in head u = head v) (fun s => let '(u, v, _, _) := s in light u + light v)
      (path_prod_step e op idm mapping comp h)) with (fuel := fuel) (s := (u0, v0, t, e)) as ([[[u v] t1] acc] & -> & (Hu & Hv & I1 & ps & -> & Hl0 & Hps & Hfall & Hlen & Hdep) & Eh).
    - intros [[[u v] t1] acc] (Hu & Hv & I1 & ps & -> & Hl0 & Hps & Hfall & Hlen & Hdep). unfold path_prod_step.
      destruct (climb_ok u v Hu Hv) as [[E ->]|(u1 & v1 & -> & Hsw & Hu1 & Hv1 & Hh & Hp & Hna & Hlt & Hd1 & Hd2)].
      + cbn [mbind res_bind]. eexists. split; [reflexivity|]. split; [|exact E]. split; [exact Hu|]. split; [exact Hv|]. split; [exact I1|]. exists ps. auto 10.
      + cbn [mbind res_bind]. rewrite (vget_ok _ _ _ (d_head _ _ _ _ _ _ _ _ Hd u1 Hu1)). cbn [mbind res_bind].
        rewrite (vget_ok _ _ _ (d_pos _ _ _ _ _ _ _ _ Hd _ Hh)). cbn [mbind res_bind]. rewrite (vget_ok _ _ _ (d_pos _ _ _ _ _ _ _ _ Hd _ Hu1)). cbn [mbind res_bind].
        assert (anc (head u1) u1) as A1 by (eapply head_anc; eauto). assert (head (head u1) = head u1) as E1 by (eapply head_head; eauto).
        destruct (prod_ok e op idm mapping comp L ML t1 a I1 (pos (head u1)) (pos u1 + 1)) as (t2 & -> & I2).
        { rewrite (li_n _ _ _ _ _ _ I1), Ha. apply seg_bounds; auto. }
        cbn [mbind res_bind]. rewrite (vget_ok _ _ _ (d_parent _ _ _ _ _ _ _ _ Hd _ Hh)). cbn [mbind res_bind].
        eexists. split; [reflexivity|]. split.
        * split; [exact Hp|]. split; [exact Hv1|]. split; [exact I2|]. exists (ps ++ [(head u1, u1)]). rewrite pieces_snoc. cbn [fst snd].
          assert (Forall (fun p => dep (head u1) <= dep (fst p) /\ dep (head v1) <= dep (fst p) /\ (dep u1 <= dep (fst p) \/ dep v1 <= dep (fst p))) ps) as Hdep1.
          { eapply Forall_impl; [exact Hdep|]. intros p. cbn. destruct Hsw as [Hsw|Hsw]; injection Hsw as -> ->; lia. }
          pose proof (head_dep _ _ _ _ Ht _ _ _ _ Hd _ Hp) as Hd3. pose proof (head_dep _ _ _ _ Ht _ _ _ _ Hd _ Hu1) as Hd4.
          split; [|split; [|split; [|split; [|split]]]].
          -- rewrite vals_app, (mprod_app _ _ L). rewrite vals_seg by auto. reflexivity.
          -- intros l Hl. rewrite <- app_assoc. apply Hl0. eapply pathp_swap; [exact Hsw|]. eapply pathp_climb; eauto.
          -- apply Forall_app. split; [exact Hps|]. constructor; [|constructor]. split; [exact Hh|]. split; [exact Hu1|]. auto.
          -- apply falling_snoc; [exact Hfall|]. eapply Forall_impl; [exact Hdep1|]. cbn. intros p Hp1. apply Hp1.
          -- rewrite app_length. cbn. destruct Hsw as [Hsw|Hsw]; injection Hsw as -> ->; lia.
          -- apply Forall_app. split; [|constructor; [cbn; lia|constructor]]. eapply Forall_impl; [exact Hdep1|]. cbn. intros p Hp1. lia.
        * destruct Hsw as [Hsw|Hsw]; injection Hsw as -> ->; lia.
    - split; [exact Hu0|]. split; [exact Hv0|]. split; [exact I|]. exists []. split; [reflexivity|]. split; [auto|]. split; [constructor|].
      split; [intros i j p q _ Hi; discriminate|]. split; [cbn; lia|constructor].
    - exact Hf.
    - cbn [mbind res_bind]. destruct (by_pos_ok u v Hu Hv Eh) as (x & y & -> & Hsw & Hx & Hy & E & A). cbn [mbind res_bind fst snd].
      rewrite (vget_ok _ _ _ (d_pos _ _ _ _ _ _ _ _ Hd _ Hx)). cbn [mbind res_bind]. rewrite (vget_ok _ _ _ (d_pos _ _ _ _ _ _ _ _ Hd _ Hy)). cbn [mbind res_bind].
      destruct (prod_ok e op idm mapping comp L ML t1 a I1 (pos x) (pos y + 1)) as (t2 & -> & I2).
      { rewrite (li_n _ _ _ _ _ _ I1), Ha. apply seg_bounds; auto. }
      cbn [mbind res_bind]. exists t2, (ps ++ [(x, y)]). rewrite pieces_snoc. cbn [fst snd]. split; [|split; [exact I2|split; [|split; [|split]]]].
      + do 2 f_equal. rewrite vals_app, (mprod_app _ _ L). rewrite (vals_seg a x y) by auto. reflexivity.
      + apply Hl0. eapply pathp_swap; [exact Hsw|]. eapply pathp_chain; eauto.
      + apply Forall_app. split; [exact Hps|]. constructor; [|constructor]. split; [exact Hx|]. split; [exact Hy|]. auto.
      + apply falling_snoc; [exact Hfall|]. pose proof (anc_dep _ _ _ _ Ht x y Hy A). eapply Forall_impl; [exact Hdep|]. cbn. intros p Hp1.
        destruct Hsw as [Hsw|Hsw]; injection Hsw as -> ->; lia.
      + rewrite app_length. cbn. lia.
  Qed.

  Lemma apply_path_ok a t u0 v0 f fuel : LInv t a -> length a = n -> u0 < n -> v0 < n -> light u0 + light v0 < fuel ->
    exists t' a' l, apply_path_fuel op idm mapping comp fuel (Hld t h) u0 v0 f = Ok (Hld t' h) /\ LInv t' a' /\ length a' = n /\ pathp u0 v0 l /\
      mapped mapping (fun x => x ∈ l) f (wof a) (wof a').
  Proof.
    intros I Ha Hu0 Hv0 Hf. unfold apply_path_fuel. cbn [hd_tree hd_data].
    pose (J := fun (s : nat * nat * lazytree S F) => let '(u, v, t) := s in
      u < n /\ v < n /\ exists a1 l0, LInv t a1 /\ length a1 = n /\ mapped mapping (fun x => x ∈ l0) f (wof a) (wof a1) /\ forall l, pathp u v l -> pathp u0 v0 (l0 ++ l)).
    destruct (rloop_inv J (fun s => J s /\ let '(u, v, _) := s in head u = head v) (fun s => let '(u, v, _) := s in light u + light v)
      (apply_path_step op idm mapping comp h f)) with (fuel := fuel) (s := (u0, v0, t)) as ([[u v] t1] & -> & (Hu & Hv & a1 & l0 & I1 & Ha1 & M1 & Hl0) & Eh).
    - intros [[u v] t1] (Hu & Hv & a1 & l0 & I1 & Ha1 & M1 & Hl0). unfold apply_path_step.
      destruct (climb_ok u v Hu Hv) as [[E ->]|(u1 & v1 & -> & Hsw & Hu1 & Hv1 & Hh & Hp & Hna & Hlt & _)].
      + cbn [mbind res_bind]. eexists. split; [reflexivity|]. split; [|exact E]. split; [exact Hu|]. split; [exact Hv|]. exists a1, l0. auto.
      + cbn [mbind res_bind]. rewrite (vget_ok _ _ _ (d_head _ _ _ _ _ _ _ _ Hd u1 Hu1)). cbn [mbind res_bind].
        rewrite (vget_ok _ _ _ (d_pos _ _ _ _ _ _ _ _ Hd _ Hh)). cbn [mbind res_bind]. rewrite (vget_ok _ _ _ (d_pos _ _ _ _ _ _ _ _ Hd _ Hu1)). cbn [mbind res_bind].
        assert (anc (head u1) u1) as A1 by (eapply head_anc; eauto). assert (head (head u1) = head u1) as E1 by (eapply head_head; eauto).
        destruct (apply_range_ok e op idm mapping comp L ML t1 a1 I1 (pos (head u1)) (pos u1 + 1) f) as (t2 & -> & I2).
        { rewrite (li_n _ _ _ _ _ _ I1), Ha1. apply seg_bounds; auto. }
        cbn [mbind res_bind]. rewrite (vget_ok _ _ _ (d_parent _ _ _ _ _ _ _ _ Hd _ Hh)). cbn [mbind res_bind].
        destruct (seg_mapped (head u1) u1 Hh Hu1 A1 E1 a1 f Ha1) as [M2 Ha2].
        assert (forall l, pathp (par (head u1)) v1 l -> pathp u0 v0 ((l0 ++ seg (head u1) u1) ++ l)) as Hnext.
        { intros l Hl. rewrite <- app_assoc. apply Hl0. eapply pathp_swap; [exact Hsw|]. eapply pathp_climb; eauto. }
        eexists. split; [reflexivity|]. split.
        * split; [exact Hp|]. split; [exact Hv1|]. eexists _, (l0 ++ seg (head u1) u1). split; [exact I2|]. split; [exact Ha2|]. split; [|exact Hnext].
          destruct (pathp_exists _ _ _ _ Ht (par (head u1)) v1 Hp Hv1) as [l Hl]. pose proof (pathp_NoDup _ _ _ _ (Hnext l Hl)) as Hnd.
          apply NoDup_app in Hnd as (Hnd & _). apply NoDup_app in Hnd as (_ & Hdis & _).
          eapply mapped_ext; [|eapply mapped_app; [exact M1|exact M2|exact Hdis|]].
          -- intros x. cbv beta. rewrite elem_of_app. reflexivity.
          -- intros x. cbv beta. destruct (decide (x ∈ l0)); auto.
        * destruct Hsw as [Hsw|Hsw]; injection Hsw as -> ->; lia.
    - split; [exact Hu0|]. split; [exact Hv0|]. exists a, []. split; [exact I|]. split; [exact Ha|]. split; [|auto]. apply mapped_refl. intros x Hx. inversion Hx.
    - exact Hf.
    - cbn [mbind res_bind]. destruct (by_pos_ok u v Hu Hv Eh) as (x & y & -> & Hsw & Hx & Hy & E & A). cbn [mbind res_bind fst snd].
      rewrite (vget_ok _ _ _ (d_pos _ _ _ _ _ _ _ _ Hd _ Hx)). cbn [mbind res_bind]. rewrite (vget_ok _ _ _ (d_pos _ _ _ _ _ _ _ _ Hd _ Hy)). cbn [mbind res_bind].
      destruct (apply_range_ok e op idm mapping comp L ML t1 a1 I1 (pos x) (pos y + 1) f) as (t2 & -> & I2).
      { rewrite (li_n _ _ _ _ _ _ I1), Ha1. apply seg_bounds; auto. }
      cbn [mbind res_bind]. destruct (seg_mapped x y Hx Hy A E a1 f Ha1) as [M2 Ha2].
      assert (pathp u0 v0 (l0 ++ seg x y)) as HP by (apply Hl0; eapply pathp_swap; [exact Hsw|]; eapply pathp_chain; eauto).
      eexists t2, _, (l0 ++ seg x y). split; [reflexivity|]. split; [exact I2|]. split; [exact Ha2|]. split; [exact HP|].
      pose proof (pathp_NoDup _ _ _ _ HP) as Hnd. apply NoDup_app in Hnd as (_ & Hdis & _).
      eapply mapped_ext; [|eapply mapped_app; [exact M1|exact M2|exact Hdis|]].
      + intros z. cbv beta. rewrite elem_of_app. reflexivity.
      + intros z. cbv beta. destruct (decide (z ∈ l0)); auto.
  Qed.

  (** *** The visiting order *)
  Context (ord : list nat) (Hord : forall k v, ord !! k = Some v <-> v < n /\ pos v = k).
  Lemma ord_perm : ord ≡ₚ seq 0 n.
  Proof.
    apply NoDup_Permutation; [|apply NoDup_seq|].
    - apply NoDup_alt. intros i j x Hi Hj. apply Hord in Hi as [_ <-]. apply Hord in Hj as [_ <-]. reflexivity.
    - intros x. rewrite elem_of_seq, elem_of_list_lookup. split.
      + intros [k Hk]. apply Hord in Hk as [Hk _]. lia.
      + intros Hx. exists (pos x). apply Hord. split; [lia|reflexivity].
  Qed.
  Lemma ord_visiting : visiting_order g root ord.
  Proof.
    split; [apply ord_perm|]. intros k u Hk. apply Hord in Hk as [Hu <-]. exists (posr u - pos u). intros j w Hj. apply Hord in Hj as [Hw <-].
    rewrite (ancestor_iff _ _ _ _ Ht u w Hu Hw), <- (d_nest _ _ _ _ _ _ _ _ Hd u w Hu Hw). lia.
  Qed.
  Lemma ord_length : length ord = n.
  Proof. rewrite (Permutation_length ord_perm), seq_length. reflexivity. Qed.
  Lemma vals_ord a : length a = n -> vals e (wof a) ord = a.
  Proof.
    intros Ha. rewrite (vals_slice a ord 0); [|intros i x Hx; apply Hord in Hx; cbn; tauto|exact Ha]. cbn [Nat.add]. rewrite ord_length, <- Ha. apply slice_full.
  Qed.
  (** Any values of the positions are the values of some vertices. *)
  Lemma wof_onto (w : list S) : length w = n -> exists a, length a = n /\ wof a = w.
  Proof.
    intros Hw. exists (vals e w ord). assert (length (vals e w ord) = n) as Hl by (unfold vals; rewrite map_length; apply ord_length).
    split; [exact Hl|]. apply list_eq. intros v. destruct (decide (v < n)) as [Hv|Hv].
    - rewrite wof_lookup by auto. unfold vals. change (map ?f ?l) with (f <$> l). rewrite list_lookup_fmap, (proj2 (Hord (pos v) v)) by auto. cbn.
      destruct (lookup_lt_is_Some_2 w v) as [y ->]; [lia|reflexivity].
    - rewrite !lookup_ge_None_2; [reflexivity|lia|]. rewrite wof_length. lia.
  Qed.

  Record hinv (x : hld S F) (w : list S) : Prop := {
    hi_tree : hd_tree x = h;
    hi_data : exists a, LInv (hd_data x) a /\ length a = n /\ w = wof a }.

  Lemma pos_panic u : n <= u -> vget (h_pos h) u = Panic.
  Proof. intros Hu. apply vget_panic. rewrite (hw_pos _ _ (d_wf _ _ _ _ _ _ _ _ Hd)). exact Hu. Qed.
  Lemma climb_panic u v : n <= u \/ n <= v -> climb h u v = Panic.
  Proof.
    intros H. unfold climb. pose proof (hw_head _ _ (d_wf _ _ _ _ _ _ _ _ Hd)) as Hl. destruct (decide (u < n)) as [Hu|Hu].
    - destruct (vget_lt (h_head h) u) as (x & -> & _); [lia|]. cbn [mbind res_bind]. rewrite (vget_panic (h_head h) v) by lia. reflexivity.
    - rewrite (vget_panic (h_head h) u) by lia. reflexivity.
  Qed.

  Lemma rloop_panic {A B} (f : A -> res (A + B)) s k : f s = Panic -> rloop (k + 1) f s = Panic.
  Proof. intros H. rewrite Nat.add_1_r. cbn [rloop]. rewrite H. reflexivity. Qed.
  Lemma apply_path_panic t u v f : n <= u \/ n <= v -> apply_path op idm mapping comp (Hld t h) u v f = Panic.
  Proof.
    intros H. unfold apply_path, apply_path_fuel, path_fuel. rewrite rloop_panic; [reflexivity|].
    unfold apply_path_step. cbn [hd_tree]. rewrite climb_panic by exact H. reflexivity.
  Qed.
  Lemma path_prod_panic t u v : n <= u \/ n <= v -> path_prod e op idm mapping comp (Hld t h) u v = Panic.
  Proof.
    intros H. unfold path_prod, path_prod_fuel, path_fuel. rewrite rloop_panic; [reflexivity|].
    unfold path_prod_step. cbn [hd_tree]. rewrite climb_panic by exact H. reflexivity.
  Qed.

  Lemma fuel_enough u v : u < n -> v < n -> light u + light v < 2 * Nat.log2 n + 1.
  Proof. intros Hu Hv. pose proof (light_log _ _ _ _ Ht _ _ _ _ Hd u Hu). pose proof (light_log _ _ _ _ Ht _ _ _ _ Hd v Hv). lia. Qed.
  Lemma path_fuel_enough t : 2 * Nat.log2 n + 1 <= path_fuel (Hld t h : hld S F).
  Proof.
    unfold path_fuel. cbn [hd_tree]. rewrite (hw_pos _ _ (d_wf _ _ _ _ _ _ _ _ Hd)).
    pose proof (t_root _ _ _ _ Ht). pose proof (Nat.log2_lt_lin n). lia.
  Qed.

  Lemma root_dist v d : v < n -> is_dist g root v d -> d = dep v.
  Proof.
    intros Hv [(l & W & Hl) Hmin]. pose proof (t_root _ _ _ _ Ht) as Hr.
    pose proof (dist_ok _ _ _ _ Ht root v root Hr Hv (lcap_anc par root v (anc_root _ _ _ _ Ht v Hv))) as [(l' & W' & Hl') Hmin'].
    rewrite (t_root_dep _ _ _ _ Ht) in *. specialize (Hmin _ W'). specialize (Hmin' _ W). lia.
  Qed.
  Lemma seg_0 x y : y < n -> anc x y -> seg x y !! 0 = Some x.
  Proof.
    intros Hy A. destruct (lookup_lt_is_Some_2 (seg x y) 0) as [z Hz]; [rewrite seg_length; lia|].
    destruct (seg_lookup _ _ _ _ Ht x y 0 z Hy A Hz) as (A1 & A2 & D). rewrite Hz. f_equal. symmetry. assert (z < n) as Hzn by (eapply anc_lt; [exact Ht|exact Hy|exact A2]).
    eapply anc_dep_eq; [exact Ht|exact Hzn|exact A1|lia].
  Qed.
  Lemma seg_descending x y : x < n -> y < n -> anc x y -> head x = head y -> descending g root ord (seg x y).
  Proof.
    intros Hx Hy A E. split; [|split].
    - intros E0. pose proof (seg_length par dep x y) as Hl. rewrite E0 in Hl. discriminate.
    - exists (pos x). intros i z Hi. destruct (seg_pos_lookup _ _ _ _ Ht _ _ _ _ Hd x y i z Hx Hy A E Hi) as [Hz Hp]. apply Hord. auto.
    - intros i z1 z2 H1 H2. destruct (seg_lookup _ _ _ _ Ht x y _ _ Hy A H1) as (B1 & B2 & B3). destruct (seg_lookup _ _ _ _ Ht x y _ _ Hy A H2) as (C1 & C2 & C3).
      assert (z1 < n) as Hz1 by (eapply anc_lt; [exact Ht|exact Hy|exact B2]). assert (z2 < n) as Hz2 by (eapply anc_lt; [exact Ht|exact Hy|exact C2]).
      assert (anc z1 z2) as A12 by (eapply anc_of_dep; [exact Ht|exact Hy|exact B2|exact C2|lia]).
      split; [|apply (ancestor_iff _ _ _ _ Ht); auto]. apply (edge_iff _ _ _ _ Ht). split; [exact Hz1|]. split; [exact Hz2|]. left.
      apply (anc_split _ _ _ _ Ht) in A12 as [->|(c & Hc & Ac)]; [lia| |exact Hz2].
      pose proof (child_dep _ _ _ _ Ht _ _ Hc). rewrite <- (anc_dep_eq _ _ _ _ Ht c z2 Hz2 Ac ltac:(lia)). exact Hc.
  Qed.
  Lemma pieces_by_pieces ps : Forall piece ps -> falling ps -> length ps <= 2 * Nat.log2 n + 1 ->
    exists bs, pieces ps = concat bs /\ length bs <= 2 * Nat.log2 n + 1 /\ Forall (descending g root ord) bs /\
    forall i j b c x y dx dy, i < j -> bs !! i = Some b -> bs !! j = Some c -> b !! 0 = Some x -> c !! 0 = Some y ->
      is_dist g root x dx -> is_dist g root y dy -> dy <= dx.
  Proof.
    intros Hps Hfall Hlen. exists (map (fun p => seg (fst p) (snd p)) ps). split; [reflexivity|]. split; [rewrite map_length; exact Hlen|]. split.
    - apply Forall_map. eapply Forall_impl; [exact Hps|]. intros p (P1 & P2 & P3 & P4). apply seg_descending; auto.
    - intros i j b c x y dx dy Hij Hi Hj Hx Hy Dx Dy. rewrite Forall_forall in Hps.
      apply list_lookup_fmap_inv in Hi as (p & -> & Hi). apply list_lookup_fmap_inv in Hj as (q & -> & Hj).
      destruct (Hps p (elem_of_list_lookup_2 _ _ _ Hi)) as (P1 & P2 & P3 & _). destruct (Hps q (elem_of_list_lookup_2 _ _ _ Hj)) as (Q1 & Q2 & Q3 & _).
      rewrite seg_0 in Hx, Hy by auto. injection Hx as <-. injection Hy as <-. apply root_dist in Dx as ->; [|exact P1]. apply root_dist in Dy as ->; [|exact Q1]. exact (Hfall i j p q Hij Hi Hj).
  Qed.

  Lemma step_ok x w o : hinv x w ->
    match hld_step e op idm mapping comp x o with
    | Ok (x', out) => exists w', hld_allowed e op mapping g root ord (by_pieces g root ord) w o (Ok (w', out)) /\ hinv x' w'
    | Panic => hld_allowed e op mapping g root ord (by_pieces g root ord) w o Panic
    | Diverge => False
    end.
  Proof.
    destruct x as [t h']. intros [Eh (a & I & Ha & ->)]. cbn [hd_tree hd_data] in *. subst h'.
    pose proof (li_n _ _ _ _ _ _ I) as Hn.
    assert (forall t' a', LInv t' a' -> length a' = n -> hinv (Hld t' h) (wof a')) as HI by (intros t' a' I' Ha'; split; cbn; eauto).
    destruct o as [u v f|u v|u f|u|u|u y|o]; cbn [hld_step hld_allowed].
    - destruct (Nat.ltb_spec u n) as [Hu|Hu]; [destruct (Nat.ltb_spec v n) as [Hv|Hv]|]; cbn [andb].
      + pose proof (path_fuel_enough t). pose proof (fuel_enough u v Hu Hv).
        destruct (apply_path_ok a t u v f (path_fuel (Hld t h)) I Ha Hu Hv ltac:(lia)) as (t' & a' & l & E & I' & Ha' & (l1 & Hl1 & HP) & M).
        unfold apply_path. rewrite E. cbn [mbind res_bind]. exists (wof a'). split; [|auto]. exists l1, (wof a'). split; [exact Hl1|]. split; [|reflexivity].
        eapply mapped_ext; [|exact M]. intros z. cbn. rewrite HP. reflexivity.
      + rewrite apply_path_panic by auto. reflexivity.
      + rewrite apply_path_panic by auto. reflexivity.
    - destruct (Nat.ltb_spec u n) as [Hu|Hu]; [destruct (Nat.ltb_spec v n) as [Hv|Hv]|]; cbn [andb].
      + pose proof (path_fuel_enough t). pose proof (fuel_enough u v Hu Hv).
        destruct (path_prod_ok a t u v (path_fuel (Hld t h)) I Ha Hu Hv ltac:(lia)) as (t' & ps & E & I' & (l1 & Hl1 & HP) & Hps & Hfall & Hlen).
        unfold path_prod. rewrite E. cbn [mbind res_bind]. exists (wof a). split; [|auto]. exists l1, (pieces ps). split; [exact Hl1|]. split; [|reflexivity].
        split; [symmetry; exact HP|]. apply pieces_by_pieces; auto. lia.
      + rewrite path_prod_panic by auto. reflexivity.
      + rewrite path_prod_panic by auto. reflexivity.
    - unfold apply_subtree. cbn [hd_tree hd_data]. destruct (Nat.ltb_spec u n) as [Hu|Hu]; [|rewrite pos_panic by exact Hu; reflexivity].
      rewrite (vget_ok _ _ _ (d_pos _ _ _ _ _ _ _ _ Hd u Hu)). cbn [mbind res_bind]. rewrite (vget_ok _ _ _ (d_posr _ _ _ _ _ _ _ _ Hd u Hu)). cbn [mbind res_bind].
      pose proof (d_lt _ _ _ _ _ _ _ _ Hd u Hu) as [_ Hr]. pose proof (proj2 (d_nest _ _ _ _ _ _ _ _ Hd u u Hu Hu) (anc_refl par u)) as Hlr.
      destruct (apply_range_ok e op idm mapping comp L ML t a I (pos u) (posr u) f) as (t' & -> & I'); [lia|]. cbn [mbind res_bind].
      destruct (range_mapped a (pos u) (posr u) f (ancestor g root u) Ha) as [M Ha'].
      { intros z Hz. rewrite (ancestor_iff _ _ _ _ Ht u z Hu Hz). symmetry. apply (d_nest _ _ _ _ _ _ _ _ Hd); auto. }
      eexists. split; [eexists; split; [exact M|reflexivity]|auto].
    - unfold subtree_prod. cbn [hd_tree hd_data]. destruct (Nat.ltb_spec u n) as [Hu|Hu]; [|rewrite pos_panic by exact Hu; reflexivity].
      rewrite (vget_ok _ _ _ (d_pos _ _ _ _ _ _ _ _ Hd u Hu)). cbn [mbind res_bind]. rewrite (vget_ok _ _ _ (d_posr _ _ _ _ _ _ _ _ Hd u Hu)). cbn [mbind res_bind].
      pose proof (d_lt _ _ _ _ _ _ _ _ Hd u Hu) as [_ Hr]. pose proof (proj2 (d_nest _ _ _ _ _ _ _ _ Hd u u Hu Hu) (anc_refl par u)) as Hlr.
      destruct (prod_ok e op idm mapping comp L ML t a I (pos u) (posr u)) as (t' & -> & I'); [lia|]. cbn [mbind res_bind fst snd].
      exists (wof a). split; [|auto]. exists (slice ord (pos u) (posr u)). split; [|split].
      + unfold slice. etrans; [apply sublist_take|apply sublist_drop].
      + intros z. rewrite elem_of_list_lookup. split.
        * intros [i Hi]. pose proof (lookup_lt_Some _ _ _ Hi) as Hil. rewrite slice_length in Hil by (rewrite ord_length; lia).
          rewrite slice_lookup in Hi by lia. apply Hord in Hi as [Hz Hp]. split; [exact Hz|]. apply (ancestor_iff _ _ _ _ Ht u z Hu Hz), (d_nest _ _ _ _ _ _ _ _ Hd u z Hu Hz). lia.
        * intros [Hz A]. apply (ancestor_iff _ _ _ _ Ht u z Hu Hz), (d_nest _ _ _ _ _ _ _ _ Hd u z Hu Hz) in A.
          exists (pos z - pos u). rewrite slice_lookup by lia. apply Hord. split; [exact Hz|lia].
      + do 3 f_equal. f_equal. rewrite (vals_slice a (slice ord (pos u) (posr u)) (pos u)); [|intros i z Hi|exact Ha].
        * rewrite slice_length by (rewrite ord_length; lia). f_equal. lia.
        * pose proof (lookup_lt_Some _ _ _ Hi) as Hil. rewrite slice_length in Hil by (rewrite ord_length; lia).
          rewrite slice_lookup in Hi by lia. apply Hord in Hi. exact Hi.
    - unfold hld_get. cbn [hd_tree hd_data]. destruct (decide (u < n)) as [Hu|Hu].
      + rewrite wof_lookup by auto. rewrite (vget_ok _ _ _ (d_pos _ _ _ _ _ _ _ _ Hd u Hu)). cbn [mbind res_bind].
        destruct (lookup_lt_is_Some_2 a (pos u)) as [y Hy]; [rewrite Ha; apply (d_lt _ _ _ _ _ _ _ _ Hd u Hu)|]. rewrite Hy.
        destruct (get_ok e op idm mapping comp L ML t a I (pos u) y Hy) as (t' & -> & I'). cbn [mbind res_bind fst snd]. exists (wof a). auto.
      + rewrite pos_panic by lia. rewrite lookup_ge_None_2 by (rewrite wof_length; lia). reflexivity.
    - unfold hld_set. cbn [hd_tree hd_data]. destruct (Nat.ltb_spec u n) as [Hu|Hu]; [|rewrite pos_panic by exact Hu; reflexivity].
      rewrite (vget_ok _ _ _ (d_pos _ _ _ _ _ _ _ _ Hd u Hu)). cbn [mbind res_bind]. pose proof (d_lt _ _ _ _ _ _ _ _ Hd u Hu) as [Hp _].
      destruct (set_ok e op idm mapping comp L ML t a I (pos u) y) as (t' & -> & I'); [lia|]. cbn [mbind res_bind].
      assert (length (<[pos u:=y]> a) = n) as Ha' by (rewrite insert_length; exact Ha).
      exists (wof (<[pos u:=y]> a)). split; [|auto]. do 2 f_equal. apply list_eq. intros z. destruct (decide (z < n)) as [Hz|Hz].
      + rewrite wof_lookup by auto. destruct (decide (z = u)) as [->|Hne].
        * rewrite !list_lookup_insert by (rewrite ?wof_length; lia). reflexivity.
        * rewrite !list_lookup_insert_ne; [symmetry; apply wof_lookup; auto|auto|]. intros E. apply Hne. eapply d_inj; eauto.
      + rewrite !lookup_ge_None_2; [reflexivity|rewrite insert_length, wof_length; lia|rewrite wof_length; lia].
    - cbn [hd_tree hd_data]. pose proof (step_allowed e op idm mapping comp L ML t a I o) as H.
      destruct (lt_step e op idm mapping comp t o) as [[t' y]| |]; cbn [mbind res_bind]; [|rewrite vals_ord by exact Ha; exact H|exact H].
      destruct H as (a' & H & I'). assert (length a' = n) as Ha'.
      { destruct o; cbn in H; repeat match type of H with context [if ?b then _ else _] => destruct b | context [match ?b with _ => _ end] => destruct b end;
          try discriminate; try (destruct H as (? & H & _)); try discriminate; injection H as -> _; rewrite ?insert_length; auto. unfold map_range. rewrite imap_length. exact Ha. }
      exists (wof a'). split; [|auto]. rewrite !vals_ord by assumption. split; [rewrite !wof_length; reflexivity|exact H].
  Qed.

  Lemma run_ok ops : forall x w, hinv x w -> hld_allowed_run e op mapping g root ord (by_pieces g root ord) w ops (fmap snd (run (hld_step e op idm mapping comp) x ops)).
  Proof.
    induction ops as [|o ops IH]; intros x w I; cbn [run]; [constructor|].
    pose proof (step_ok x w o I) as H. destruct (hld_step e op idm mapping comp x o) as [[x' out]| |]; cbn [mbind res_bind]; [|constructor; exact H|contradiction].
    destruct H as (w' & H & I'). specialize (IH x' w' I'). destruct (run (hld_step e op idm mapping comp) x' ops) as [[x2 outs]| |]; cbn in IH |- *.
    - eapply har_ok; eauto.
    - eapply har_later; eauto.
    - inversion IH.
  Qed.
End ops.

Lemma rloop_more {A B} (f : A -> res (A + B)) : forall k k' s r, rloop k f s = Ok r -> k <= k' -> rloop k' f s = Ok r.
Proof.
  induction k as [|k IH]; intros k' s r H Hk; [discriminate|]. destruct k' as [|k']; [lia|]. cbn [rloop] in *.
  destruct (f s) as [[s'|r']| |]; cbn [mbind res_bind] in *; try discriminate; [|exact H]. apply IH; [exact H|lia].
Qed.
