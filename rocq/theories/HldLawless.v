(** HLD over arbitrary functions, followed on the free structure of lists of entries. *)
From Verif Require Import Prelude UtilModel ArraySpec LazySpec LazyModel LazyProof LazyTop TreeSpec HldSpec HldModel HldTree HldProof HldOps HldProps FreeSpec LawlessSpec RelProof LazyRel LazyLawless.

Section HldFree.
  Context {S F : Type} (e : S) (op : S -> S -> S) (idm : F) (mapping : F -> S -> S) (comp : F -> F -> F).
  Local Notation entry := (S * list F)%type.
  Local Notation Good := (Good e op idm mapping comp).
  Local Notation Res v x := (results e op idm mapping comp v x).
  Local Notation Lin := (LInv (S := list entry) (F := list F) [] app [] fmapping).
  Definition single (a : list entry) : list (list entry) := (fun q => [q]) <$> a.

  Lemma single_prod (a : list entry) : mprod [] app (single a) = a.
  Proof. induction a as [|q a IH]; [reflexivity|]. unfold mprod in *. cbn. f_equal. exact IH. Qed.
  Lemma single_slice a l r : slice (single a) l r = single (slice a l r).
  Proof. unfold slice, single. rewrite <- fmap_drop, <- fmap_take. reflexivity. Qed.
  Lemma single_length a : length (single a) = length a.
  Proof. apply fmap_length. Qed.
  Lemma single_range a l r f : map_range (fmapping [f]) l r (single a) = single (map_range (fun q => (q.1, f :: q.2)) l r a).
  Proof.
    unfold map_range, single. apply list_eq. intros i. rewrite list_lookup_imap, !list_lookup_fmap, list_lookup_imap.
    destruct (a !! i) as [[x fs]|]; [|reflexivity]. cbn. destruct (_ && _); reflexivity.
  Qed.
  Lemma single_inj a b : single a = single b -> a = b.
  Proof. revert b. induction a as [|q a IH]; intros [|r b] H; try discriminate H; [reflexivity|]. injection H as -> H. f_equal. apply IH. exact H. Qed.
  Lemma lz_any_length a o a' y : lz_any e op idm mapping comp a o (Ok (a', y)) -> length a' = length a.
  Proof.
    destruct o as [p x|p|l r| |p f|l r f|l g|r g]; cbn [lz_any].
    - destruct (p <? length a); [|discriminate]. intros [= -> _]. apply insert_length.
    - destruct (a !! p); [|discriminate]. intros (x & [= -> _] & _). reflexivity.
    - destruct (_ && _); [|discriminate]. intros (x & [= -> _] & _). reflexivity.
    - intros (x & [= -> _] & _). reflexivity.
    - destruct (a !! p); [|discriminate]. intros [= -> _]. apply insert_length.
    - destruct (_ && _); [|discriminate]. intros [= -> _]. apply imap_length.
    - destruct (_ && _); [|discriminate]. intros (x & [= -> _] & _). reflexivity.
    - destruct (_ && _); [|discriminate]. intros (x & [= -> _] & _). reflexivity.
  Qed.

  (** A tree and one over the lists that hold the same entries. *)
  Definition LRel (t : lazytree S F) (t2 : lazytree (list entry) (list F)) : Prop := exists a, Good t a /\ Lin t2 (single a).
  Definition vrel (y : lazytree S F * S) (y2 : lazytree (list entry) (list F) * list entry) : Prop := LRel y.1 y2.1 /\ Res y2.2 y.2.
  Local Notation prodS t l r := (lt_prod e op idm mapping comp t l r).
  Local Notation prodM t l r := (lt_prod [] app [] fmapping app t l r).

  Lemma prod_lock t t2 l r : LRel t t2 -> rel vrel (prodS t l r) (prodM t2 l r).
  Proof.
    intros (a & G & I). pose proof (good_step e op idm mapping comp t a (LzProd l r) G) as H.
    pose proof (step_allowed _ _ _ _ _ free_monoid free_maps t2 _ I (LzProd l r)) as H2. cbn [lt_step lz_any lz_allowed lz_spec_step] in H, H2. rewrite single_length in H2.
    destruct ((l <=? r) && (r <=? length a)).
    - destruct (prodS t l r) as [[t' x]| |]; cbn [mbind res_bind] in H; [|destruct H as (? & [=] & _)|destruct H]. destruct H as (a' & (x' & [= -> ->] & Hx) & G').
      destruct (prodM t2 l r) as [[t2' v]| |]; cbn [mbind res_bind] in H2; [|discriminate H2|destruct H2]. destruct H2 as (a2 & [= -> ->] & I').
      split; [exists a; auto|]. cbn [snd]. rewrite single_slice, single_prod. exact Hx.
    - destruct (prodS t l r) as [[t' x]| |]; cbn [mbind res_bind] in H; [destruct H as (? & [=] & _)| |destruct H].
      destruct (prodM t2 l r) as [[t2' v]| |]; cbn [mbind res_bind] in H2; [destruct H2 as (? & [=] & _)|exact Logic.I|destruct H2].
  Qed.
  Lemma apply_range_lock t t2 l r f : LRel t t2 -> rel LRel (lt_apply_range op idm mapping comp t l r f) (lt_apply_range app [] fmapping app t2 l r [f]).
  Proof.
    intros (a & G & I). pose proof (good_step e op idm mapping comp t a (LzApplyRange l r f) G) as H.
    pose proof (step_allowed _ _ _ _ _ free_monoid free_maps t2 _ I (LzApplyRange l r [f])) as H2. cbn [lt_step lz_any lz_allowed lz_spec_step] in H, H2. rewrite single_length in H2.
    destruct ((l <=? r) && (r <=? length a)).
    - destruct (lt_apply_range op idm mapping comp t l r f) as [t'| |]; cbn [mbind res_bind] in H; [|discriminate H|destruct H]. destruct H as (a' & [= ->] & G').
      destruct (lt_apply_range app [] fmapping app t2 l r [f]) as [t2'| |]; cbn [mbind res_bind] in H2; [|discriminate H2|destruct H2]. destruct H2 as (a2 & [= ->] & I').
      rewrite single_range in I'. eexists. split; [exact G'|exact I'].
    - destruct (lt_apply_range op idm mapping comp t l r f) as [t'| |]; cbn [mbind res_bind] in H; [destruct H as (? & [=] & _)| |destruct H].
      destruct (lt_apply_range app [] fmapping app t2 l r [f]) as [t2'| |]; cbn [mbind res_bind] in H2; [destruct H2 as (? & [=] & _)|exact Logic.I|destruct H2].
  Qed.
  Lemma set_lock t t2 p x : LRel t t2 -> rel LRel (lt_set op idm mapping comp t p x) (lt_set app [] fmapping app t2 p [(x, [])]).
  Proof.
    intros (a & G & I). pose proof (good_step e op idm mapping comp t a (LzSet p x) G) as H.
    pose proof (step_allowed _ _ _ _ _ free_monoid free_maps t2 _ I (LzSet p [(x, [])])) as H2. cbn [lt_step lz_any lz_allowed lz_spec_step] in H, H2. rewrite single_length in H2.
    destruct (p <? length a).
    - destruct (lt_set op idm mapping comp t p x) as [t'| |]; cbn [mbind res_bind] in H; [|discriminate H|destruct H]. destruct H as (a' & [= ->] & G').
      destruct (lt_set app [] fmapping app t2 p [(x, [])]) as [t2'| |]; cbn [mbind res_bind] in H2; [|discriminate H2|destruct H2]. destruct H2 as (a2 & [= ->] & I').
      eexists. split; [exact G'|]. unfold single. rewrite list_fmap_insert. exact I'.
    - destruct (lt_set op idm mapping comp t p x) as [t'| |]; cbn [mbind res_bind] in H; [destruct H as (? & [=] & _)| |destruct H].
      destruct (lt_set app [] fmapping app t2 p [(x, [])]) as [t2'| |]; cbn [mbind res_bind] in H2; [destruct H2 as (? & [=] & _)|exact Logic.I|destruct H2].
  Qed.
  Lemma get_lock t t2 p : LRel t t2 -> rel vrel (lt_get idm mapping comp t p) (lt_get [] fmapping app t2 p).
  Proof.
    intros (a & G & I). pose proof (good_step e op idm mapping comp t a (LzGet p) G) as H.
    pose proof (step_allowed _ _ _ _ _ free_monoid free_maps t2 _ I (LzGet p)) as H2. cbn [lt_step lz_any lz_allowed lz_spec_step] in H, H2.
    assert (El : single a !! p = (fun q => [q]) <$> a !! p) by apply list_lookup_fmap. rewrite El in H2. destruct (a !! p) as [q|]; cbn [fmap option_fmap option_map] in H2.
    - destruct (lt_get idm mapping comp t p) as [[t' x]| |]; cbn [mbind res_bind] in H; [|destruct H as (? & [=] & _)|destruct H]. destruct H as (a' & (x' & [= -> ->] & Hx) & G').
      destruct (lt_get [] fmapping app t2 p) as [[t2' v]| |]; cbn [mbind res_bind] in H2; [|discriminate H2|destruct H2]. destruct H2 as (a2 & [= -> ->] & I').
      split; [exists a; auto|exact Hx].
    - destruct (lt_get idm mapping comp t p) as [[t' x]| |]; cbn [mbind res_bind] in H; [destruct H as (? & [=] & _)| |destruct H].
      destruct (lt_get [] fmapping app t2 p) as [[t2' v]| |]; cbn [mbind res_bind] in H2; [destruct H2 as (? & [=] & _)|exact Logic.I|destruct H2].
  Qed.

  Definition hrel (x : hld S F) (x2 : hld (list entry) (list F)) : Prop := hd_tree x = hd_tree x2 /\ LRel (hd_data x) (hd_data x2).
  Definition hvrel (y : hld S F * S) (y2 : hld (list entry) (list F) * list entry) : Prop := hrel y.1 y2.1 /\ Res y2.2 y.2.
  Lemma apply_path_lock x x2 u v f : hrel x x2 -> rel hrel (apply_path op idm mapping comp x u v f) (apply_path app [] fmapping app x2 u v [f]).
  Proof.
    destruct x as [t h], x2 as [t2 h2]. intros [Eh Ht]. cbn in Eh, Ht. subst h2. unfold apply_path, apply_path_fuel, path_fuel. cbn [hd_tree hd_data].
    apply (rel_bind (fun s s2 => s.1 = s2.1 /\ LRel s.2 s2.2)).
    - apply (rel_loop (fun s s2 => s.1 = s2.1 /\ LRel s.2 s2.2) (fun s s2 => s.1 = s2.1 /\ LRel s.2 s2.2)); [|split; [reflexivity|exact Ht]].
      intros [[u' v'] s] [[u2 v2] s2] [[= <- <-] Hs]. cbn in Hs. unfold apply_path_step. apply rel_same. intros [[u1 v1]|]; [|split; [reflexivity|exact Hs]].
      apply rel_same. intros hu. apply rel_same. intros l. apply rel_same. intros r. eapply rel_bind; [apply apply_range_lock; exact Hs|].
      intros s' s2' Hs'. apply rel_same. intros p. split; [reflexivity|exact Hs'].
    - intros [[u' v'] s] [[u2 v2] s2] [[= <- <-] Hs]. cbn in Hs. apply rel_same. intros uv. apply rel_same. intros l. apply rel_same. intros r.
      eapply rel_bind; [apply apply_range_lock; exact Hs|]. intros s' s2' Hs'. split; [reflexivity|exact Hs'].
  Qed.
  Lemma path_prod_lock x x2 u v : hrel x x2 -> rel hvrel (path_prod e op idm mapping comp x u v) (path_prod [] app [] fmapping app x2 u v).
  Proof.
    destruct x as [t h], x2 as [t2 h2]. intros [Eh Ht]. cbn in Eh, Ht. subst h2. unfold path_prod, path_prod_fuel, path_fuel. cbn [hd_tree hd_data].
    set (R := fun (s : nat * nat * lazytree S F * S) (s2 : nat * nat * lazytree (list entry) (list F) * list entry) => s.1.1 = s2.1.1 /\ LRel s.1.2 s2.1.2 /\ Res s2.2 s.2).
    apply (rel_bind R).
    - apply (rel_loop R R); [|split; [reflexivity|]; split; [exact Ht|constructor]].
      intros [[[u' v'] s] c] [[[u2 v2] s2] c2] ([= <- <-] & Hs & Hc). cbn in Hs, Hc. unfold path_prod_step. apply rel_same. intros [[u1 v1]|]; [|split; [reflexivity|split; assumption]].
      apply rel_same. intros hu. apply rel_same. intros l. apply rel_same. intros r. eapply rel_bind; [apply prod_lock; exact Hs|].
      intros [s' z] [s2' z2] [Hs' Hz]. apply rel_same. intros p. split; [reflexivity|]. split; [exact Hs'|constructor; assumption].
    - intros [[[u' v'] s] c] [[[u2 v2] s2] c2] ([= <- <-] & Hs & Hc). cbn in Hs, Hc. apply rel_same. intros uv. apply rel_same. intros l. apply rel_same. intros r.
      eapply rel_bind; [apply prod_lock; exact Hs|]. intros [s' z] [s2' z2] [Hs' Hz]. split; [split; [reflexivity|exact Hs']|constructor; assumption].
  Qed.
  Lemma apply_subtree_lock x x2 u f : hrel x x2 -> rel hrel (apply_subtree op idm mapping comp x u f) (apply_subtree app [] fmapping app x2 u [f]).
  Proof.
    destruct x as [t h], x2 as [t2 h2]. intros [Eh Ht]. cbn in Eh, Ht. subst h2. unfold apply_subtree. cbn [hd_tree hd_data].
    apply rel_same. intros l. apply rel_same. intros r. eapply rel_bind; [apply apply_range_lock; exact Ht|]. intros s s2 Hs. split; [reflexivity|exact Hs].
  Qed.
  Lemma subtree_prod_lock x x2 u : hrel x x2 -> rel hvrel (subtree_prod e op idm mapping comp x u) (subtree_prod [] app [] fmapping app x2 u).
  Proof.
    destruct x as [t h], x2 as [t2 h2]. intros [Eh Ht]. cbn in Eh, Ht. subst h2. unfold subtree_prod. cbn [hd_tree hd_data].
    apply rel_same. intros l. apply rel_same. intros r. eapply rel_bind; [apply prod_lock; exact Ht|]. intros s s2 [Hs Hv]. split; [split; [reflexivity|exact Hs]|exact Hv].
  Qed.
  Lemma hget_lock x x2 u : hrel x x2 -> rel hvrel (hld_get idm mapping comp x u) (hld_get [] fmapping app x2 u).
  Proof.
    destruct x as [t h], x2 as [t2 h2]. intros [Eh Ht]. cbn in Eh, Ht. subst h2. unfold hld_get. cbn [hd_tree hd_data].
    apply rel_same. intros l. eapply rel_bind; [apply get_lock; exact Ht|]. intros s s2 [Hs Hv]. split; [split; [reflexivity|exact Hs]|exact Hv].
  Qed.
  Lemma hset_lock x x2 u y : hrel x x2 -> rel hrel (hld_set op idm mapping comp x u y) (hld_set app [] fmapping app x2 u [(y, [])]).
  Proof.
    destruct x as [t h], x2 as [t2 h2]. intros [Eh Ht]. cbn in Eh, Ht. subst h2. unfold hld_set. cbn [hd_tree hd_data].
    apply rel_same. intros l. eapply rel_bind; [apply set_lock; exact Ht|]. intros s s2 Hs. split; [reflexivity|exact Hs].
  Qed.

  Lemma linv_unique t a b : Lin t a -> Lin t b -> a = b.
  Proof.
    intros Ia Ib. pose proof (li_n _ _ _ _ _ _ Ia) as Na. pose proof (li_n _ _ _ _ _ _ Ib) as Nb. pose proof (li_le _ _ _ _ _ _ Ia) as Hle. pose proof (li_size _ _ _ _ _ _ Ia) as Hs.
    apply (list_eq_same_length _ _ (length a)); [congruence|reflexivity|]. intros i x y Hi Hx Hy.
    pose proof (R_val _ _ _ _ _ _ _ _ _ (li_R _ _ _ _ _ _ Ia) (2 ^ lt_log t + i)) as Va. pose proof (R_val _ _ _ _ _ _ _ _ _ (li_R _ _ _ _ _ _ Ib) (2 ^ lt_log t + i)) as Vb.
    rewrite Va in Vb by (unfold leaf; lia). unfold arr in Vb. replace (2 ^ lt_log t + i - 2 ^ lt_log t) with i in Vb by lia. rewrite Hx, Hy in Vb. apply Vb. unfold leaf. lia.
  Qed.

  Section Tree.
    Context (g : list (list nat)) (root : nat) (par dep : nat -> nat) (Ht : TreeProof.rtree g root par dep).
    Context (h : hl) (hv : nat -> option nat) (pos posr : nat -> nat) (Hd : decomp g root par dep h hv pos posr).
    Context (ord : list nat) (Hord : forall k v, ord !! k = Some v <-> v < length g /\ pos v = k).
    Context (Hn32 : (Z.of_nat (length g) < 2 ^ 32)%Z).
    Notation n := (length g).

    Definition HInv (x : hld S F) (w : list entry) : Prop :=
      hd_tree x = h /\ length w = n /\ exists a, Good (hd_data x) a /\ length a = n /\ forall v, v < n -> w !! v = a !! pos v.

    Lemma wof_single a w : length a = n -> length w = n -> (forall v, v < n -> w !! v = a !! pos v) -> wof [] g pos (single a) = single w.
    Proof.
      intros Ha Hw H. apply list_eq. intros v. destruct (decide (v < n)) as [Hv|Hv].
      - rewrite (wof_lookup [] g root par dep h hv pos posr Hd) by (rewrite ?single_length; auto). unfold single. rewrite !list_lookup_fmap, H by exact Hv. reflexivity.
      - rewrite !lookup_ge_None_2; [reflexivity|rewrite single_length; lia|rewrite wof_length; lia].
    Qed.
    Lemma vals_entries w l : mprod [] app (vals [] (single w) l) = entries w l.
    Proof.
      induction l as [|x l IH]; [reflexivity|].
      change (default [] (single w !! x) ++ mprod [] app (vals [] (single w) l) = entries w (x :: l)). rewrite IH. unfold single, entries. rewrite list_lookup_fmap. cbn.
      destruct (w !! x); reflexivity.
    Qed.
    Lemma entries_ord (w a : list entry) : length a = n -> (forall v, v < n -> w !! v = a !! pos v) -> entries w ord = a.
    Proof.
      intros Ha H. assert (Hl : length ord = length a) by (rewrite Ha; eapply ord_length; exact Hord).
      assert (Hk : forall k v, ord !! k = Some v -> w !! v = a !! k) by (intros k v Hk; apply Hord in Hk as [Hv <-]; apply H; exact Hv).
      clear Ha H Hord. revert a Hl Hk. induction ord as [|v l IH]; intros [|q a] Hl Hk; try discriminate Hl; [reflexivity|]. cbn.
      rewrite (Hk 0 v eq_refl). cbn. f_equal. apply IH; [injection Hl as Hl; exact Hl|]. intros k u Hu. apply (Hk (Datatypes.S k) u Hu).
    Qed.
    Lemma mapped_single P f w w' : mapped fmapping P [f] (single w) (single w') -> mapped (fun f q => (q.1, f :: q.2)) P f w w'.
    Proof.
      intros [Hl H]. rewrite !single_length in Hl. split; [exact Hl|]. intros x y Hy. destruct (H x [y]) as [H1 H2]; [unfold single; rewrite list_lookup_fmap, Hy; reflexivity|].
      unfold single in H1, H2. rewrite list_lookup_fmap in H1, H2. split; intros HP.
      - specialize (H1 HP). destruct (w' !! x); [|discriminate H1]. injection H1 as ->. reflexivity.
      - specialize (H2 HP). destruct (w' !! x); [|discriminate H2]. injection H2 as ->. reflexivity.
    Qed.

    (** The structure over the lists that follows x. *)
    Lemma follower x w : HInv x w -> exists x2, hrel x x2 /\ hinv [] app [] fmapping g h pos x2 (single w).
    Proof.
      intros (Ex & Hw & a & G & Ha & H). destruct (from_inv [] app [] fmapping app free_monoid free_maps (single a)) as (t2 & _ & I); [rewrite single_length; lia|].
      exists (Hld t2 h). split; [split; [exact Ex|]; exists a; auto|]. split; [reflexivity|]. exists (single a). split; [exact I|]. split; [rewrite single_length; exact Ha|].
      symmetry. apply wof_single; assumption.
    Qed.
    Lemma followed x x2 w2 : hrel x x2 -> hinv [] app [] fmapping g h pos x2 w2 -> exists w, w2 = single w /\ HInv x w.
    Proof.
      intros [Ex (a & G & I)] [Ex2 (a2 & I2 & Ha2 & ->)]. rewrite (linv_unique _ _ _ I2 I) in *. clear a2 I2. rewrite single_length in Ha2.
      exists (omap (fun v => a !! pos v) (seq 0 n)).
      assert (Hall : forall v, v < n -> is_Some (a !! pos v)) by (intros v Hv; apply lookup_lt_is_Some_2; rewrite Ha2; apply (d_lt _ _ _ _ _ _ _ _ Hd v Hv)).
      assert (Hlk : forall m, m <= n -> length (omap (fun v => a !! pos v) (seq 0 m)) = m /\ forall v, v < m -> omap (fun v => a !! pos v) (seq 0 m) !! v = a !! pos v).
      { induction m as [|m IH]; intros Hm; [split; [reflexivity|lia]|]. destruct IH as [L1 L2]; [lia|]. rewrite seq_S, omap_app. cbn.
        destruct (Hall m ltac:(lia)) as [q Hq]. rewrite Hq. split; [rewrite app_length, L1; cbn; lia|]. intros v Hv. destruct (decide (v < m)) as [Hvm|Hvm].
        - rewrite lookup_app_l by lia. apply L2. exact Hvm.
        - assert (v = m) as -> by lia. rewrite lookup_app_r, L1, Nat.sub_diag by lia. symmetry. exact Hq. }
      destruct (Hlk n (le_n n)) as [L1 L2]. split; [apply wof_single; assumption|]. split; [congruence|]. split; [exact L1|]. exists a. auto.
    Qed.

    Lemma hld_any_step x w o : HInv x w ->
      match hld_step e op idm mapping comp x o with
      | Ok (x', out) => exists w', hld_any e op idm mapping comp g root ord (by_pieces g root ord) w o (Ok (w', out)) /\ HInv x' w'
      | Panic => hld_any e op idm mapping comp g root ord (by_pieces g root ord) w o Panic
      | Diverge => False
      end.
    Proof.
      intros HI. destruct (follower x w HI) as (x2 & Hr & I2).
      pose proof (fun o2 => step_ok [] app [] fmapping app free_monoid free_maps g root par dep Ht h hv pos posr Hd ord Hord x2 (single w) o2 I2) as St.
      destruct o as [u v f|u v|u f|u|u|u y|o]; cbn [hld_step hld_any].
      - specialize (St (HApplyPath u v [f])). cbn [hld_step hld_allowed] in St. pose proof (apply_path_lock x x2 u v f Hr) as Lk.
        destruct (apply_path op idm mapping comp x u v f) as [x'| |]; destruct (apply_path app [] fmapping app x2 u v [f]) as [x2'| |]; cbn in Lk; try contradiction; cbn [mbind res_bind] in St |- *.
        + destruct St as (w2' & St & I2'). destruct (followed _ _ _ Lk I2') as (w' & -> & HI'). exists w'. split; [|exact HI'].
          destruct (_ && _); [|discriminate St]. destruct St as (l & w3 & Hp & Hm & [= <-]). exists l, w'. split; [exact Hp|]. split; [|reflexivity]. apply mapped_single. exact Hm.
        + destruct (_ && _); [destruct St as (? & ? & _ & _ & [=])|reflexivity].
      - specialize (St (HPathProd u v)). cbn [hld_step hld_allowed] in St. pose proof (path_prod_lock x x2 u v Hr) as Lk.
        destruct (path_prod e op idm mapping comp x u v) as [[x' y]| |]; destruct (path_prod [] app [] fmapping app x2 u v) as [[x2' y2]| |]; cbn in Lk; try contradiction; cbn [mbind res_bind] in St |- *.
        + destruct Lk as [Hr' Hy]. cbn in Hr', Hy. destruct St as (w2' & St & I2'). destruct (followed _ _ _ Hr' I2') as (w' & -> & HI').
          destruct (_ && _); [|discriminate St]. destruct St as (l & l' & Hp & Ho & [= E ->]). apply single_inj in E as ->. rewrite vals_entries in Hy.
          exists w. split; [|exact HI']. exists l, l', y. auto.
        + destruct (_ && _); [destruct St as (? & ? & _ & _ & [=])|reflexivity].
      - specialize (St (HApplySubtree u [f])). cbn [hld_step hld_allowed] in St. pose proof (apply_subtree_lock x x2 u f Hr) as Lk.
        destruct (apply_subtree op idm mapping comp x u f) as [x'| |]; destruct (apply_subtree app [] fmapping app x2 u [f]) as [x2'| |]; cbn in Lk; try contradiction; cbn [mbind res_bind] in St |- *.
        + destruct St as (w2' & St & I2'). destruct (followed _ _ _ Lk I2') as (w' & -> & HI'). exists w'. split; [|exact HI'].
          destruct (u <? n); [|discriminate St]. destruct St as (w3 & Hm & [= <-]). exists w'. split; [|reflexivity]. apply mapped_single. exact Hm.
        + destruct (u <? n); [destruct St as (? & _ & [=])|reflexivity].
      - specialize (St (HSubtreeProd u)). cbn [hld_step hld_allowed] in St. pose proof (subtree_prod_lock x x2 u Hr) as Lk.
        destruct (subtree_prod e op idm mapping comp x u) as [[x' y]| |]; destruct (subtree_prod [] app [] fmapping app x2 u) as [[x2' y2]| |]; cbn in Lk; try contradiction; cbn [mbind res_bind] in St |- *.
        + destruct Lk as [Hr' Hy]. cbn in Hr', Hy. destruct St as (w2' & St & I2'). destruct (followed _ _ _ Hr' I2') as (w' & -> & HI').
          destruct (u <? n); [|discriminate St]. destruct St as (l & Hs & Hin & [= E ->]). apply single_inj in E as ->. rewrite vals_entries in Hy.
          exists w. split; [|exact HI']. exists l, y. auto.
        + destruct (u <? n); [destruct St as (? & _ & _ & [=])|reflexivity].
      - specialize (St (HGet u)). cbn [hld_step hld_allowed] in St. assert (El : single w !! u = (fun q => [q]) <$> w !! u) by apply list_lookup_fmap. rewrite El in St. pose proof (hget_lock x x2 u Hr) as Lk.
        destruct (hld_get idm mapping comp x u) as [[x' y]| |]; destruct (hld_get [] fmapping app x2 u) as [[x2' y2]| |]; cbn in Lk; try contradiction; cbn [mbind res_bind] in St |- *.
        + destruct Lk as [Hr' Hy]. cbn in Hr', Hy. destruct St as (w2' & St & I2'). destruct (followed _ _ _ Hr' I2') as (w' & -> & HI').
          destruct (w !! u) as [q|]; cbn in St; [|discriminate St]. injection St as E ->. apply single_inj in E as ->. exists w. split; [|exact HI']. exists y. auto.
        + destruct (w !! u) as [q|]; cbn in St; [discriminate St|reflexivity].
      - specialize (St (HSet u [(y, [])])). cbn [hld_step hld_allowed] in St. pose proof (hset_lock x x2 u y Hr) as Lk.
        destruct (hld_set op idm mapping comp x u y) as [x'| |]; destruct (hld_set app [] fmapping app x2 u [(y, [])]) as [x2'| |]; cbn in Lk; try contradiction; cbn [mbind res_bind] in St |- *.
        + destruct St as (w2' & St & I2'). destruct (followed _ _ _ Lk I2') as (w' & -> & HI'). exists w'. split; [|exact HI'].
          destruct (u <? n); [|discriminate St]. injection St as E. f_equal. f_equal. apply single_inj. unfold single in *. rewrite list_fmap_insert. exact E.
        + destruct (u <? n); [discriminate St|reflexivity].
      - clear St. destruct HI as (Ex & Hw & a & G & Ha & H). rewrite (entries_ord w a Ha H). pose proof (good_step e op idm mapping comp (hd_data x) a o G) as Sl.
        destruct (lt_step e op idm mapping comp (hd_data x) o) as [[t' y]| |]; cbn [mbind res_bind]; [|exact Sl|exact Sl].
        destruct Sl as (a' & Sl & G'). pose proof (lz_any_length _ _ _ _ Sl) as Hl. rewrite Ha in Hl.
        destruct (from_inv [] app [] fmapping app free_monoid free_maps (single a')) as (t2 & _ & I'); [rewrite single_length; lia|].
        destruct (followed (Hld t' h) (Hld t2 h) (wof [] g pos (single a'))) as (w' & Ew & HI').
        { split; [reflexivity|]. exists a'. auto. }
        { split; [reflexivity|]. exists (single a'). split; [exact I'|]. split; [rewrite single_length; exact Hl|reflexivity]. }
        exists w'. rewrite Ex. split; [|exact HI']. destruct HI' as (_ & Hw' & a2 & G2 & Ha2 & H2). split; [congruence|].
        rewrite (entries_ord w' a' Hl); [exact Sl|]. intros v Hv. apply (f_equal (fun l => l !! v)) in Ew.
        rewrite (wof_lookup [] g root par dep h hv pos posr Hd) in Ew by (rewrite ?single_length; auto). unfold single in Ew. rewrite !list_lookup_fmap in Ew.
        destruct (a' !! pos v), (w' !! v); try discriminate Ew; [injection Ew as ->|]; reflexivity.
    Qed.

    Lemma hld_any_run ops : forall x w, HInv x w ->
      match run (hld_step e op idm mapping comp) x ops with
      | Ok (x', outs) => exists w', allowed_run (hld_any e op idm mapping comp g root ord (by_pieces g root ord)) w ops (Ok (w', outs)) /\ HInv x' w'
      | Panic => allowed_run (hld_any e op idm mapping comp g root ord (by_pieces g root ord)) w ops Panic
      | Diverge => False
      end.
    Proof.
      induction ops as [|o ops IH]; intros x w HI; cbn [run]; [exists w; split; [constructor|exact HI]|].
      pose proof (hld_any_step x w o HI) as H. destruct (hld_step e op idm mapping comp x o) as [[x' out]| |]; cbn [mbind res_bind]; [|constructor; exact H|destruct H].
      destruct H as (w' & Hw & HI'). specialize (IH x' w' HI'). destruct (run (hld_step e op idm mapping comp) x' ops) as [[x2 outs]| |]; cbn [mbind res_bind].
      - destruct IH as (w2 & Hr & I2). exists w2. split; [eapply ar_ok; eassumption|exact I2].
      - eapply ar_later; eassumption.
      - destruct IH.
    Qed.
  End Tree.

  Section Build.
    Context (g : list (list nat)) (root : nat) (T : is_tree g) (Hr : root < length g) (Hn : (Z.of_nat (length g) < 2 ^ 32)%Z).
    Notation n := (length g).
    Definition built_any (x : hld S F) (w : list entry) (ord : list nat) : Prop :=
      exists par dep hv pos posr (h : hl), TreeProof.rtree g root par dep /\ decomp g root par dep h hv pos posr /\
        (forall k v, ord !! k = Some v <-> v < n /\ pos v = k) /\ HInv g h pos x w.
    Lemma fresh_length (v : list S) : length (fresh (F := F) v) = length v.
    Proof. apply map_length. Qed.
    Lemma fresh_lookup (v : list S) i : fresh (F := F) v !! i = (fun x => (x, [])) <$> v !! i.
    Proof. apply list_lookup_fmap. Qed.

    Lemma new_built_any : exists x ord, hld_new e op idm g root = Ok x /\ built_any x (fresh (replicate n e)) ord.
    Proof.
      destruct (TreeProof.tree_rtree g T root Hr) as (par & dep & R). destruct (hl_new_ok g root par dep R) as (h & hv & pos & posr & E & D).
      destruct (ord_exists g root Hr pos) as (ord & Hord); [apply (d_onto _ _ _ _ _ _ _ _ D)|intros v Hv; apply (d_lt _ _ _ _ _ _ _ _ D v Hv)|apply (d_inj _ _ _ _ _ _ _ _ D)|].
      unfold hld_new, lt_new. destruct (Nat.ltb_spec root n); [|lia]. cbn [rassert mbind res_bind].
      destruct (good_from e op idm mapping comp (replicate n e)) as (t & -> & I); [rewrite replicate_length; exact Hn|]. cbn [mbind res_bind].
      rewrite E. cbn [mbind res_bind]. exists (Hld t h), ord. split; [reflexivity|]. exists par, dep, hv, pos, posr, h.
      split; [exact R|]. split; [exact D|]. split; [exact Hord|]. split; [reflexivity|]. split; [rewrite fresh_length; apply replicate_length|].
      exists (fresh (replicate n e)). split; [exact I|]. split; [rewrite fresh_length; apply replicate_length|]. intros v Hv. rewrite !fresh_lookup, !lookup_replicate_2; auto. apply (d_lt _ _ _ _ _ _ _ _ D v Hv).
    Qed.

    Lemma with_init_built_any w : length w = n -> exists x ord, hld_with_init e op idm g root w = Ok x /\ built_any x (fresh w) ord.
    Proof.
      intros Hw. destruct new_built_any as (x & ord & E & par & dep & hv & pos & posr & h & R & D & Hord & Hx & _).
      unfold hld_with_init. rewrite Hw, Nat.eqb_refl. cbn [rassert mbind res_bind]. rewrite E. cbn [mbind res_bind]. rewrite Hx. unfold range.
      destruct (rfor_range_inv (fun i a => length a = n /\ forall j, j < i -> a !! pos j = w !! j) 0 n
        (fun i a => p ← vget (h_pos h) i; x ← vget w i; vset a p x) w) as (a & -> & Ha & Hv).
      - lia.
      - split; [exact Hw|]. intros j Hj. lia.
      - intros i a Hi [Ha Hv]. rewrite (vget_ok _ _ _ (d_pos _ _ _ _ _ _ _ _ D i ltac:(lia))). cbn [mbind res_bind].
        destruct (vget_lt w i) as (y & -> & Hy); [lia|]. cbn [mbind res_bind]. assert (pos i < n) as Hp by (apply (d_lt _ _ _ _ _ _ _ _ D); lia).
        rewrite vset_ok by lia. eexists. split; [reflexivity|]. split; [rewrite insert_length; exact Ha|].
        intros j Hj. destruct (decide (j = i)) as [->|Hne]; [rewrite list_lookup_insert by lia; congruence|].
        rewrite list_lookup_insert_ne; [apply Hv; lia|]. intros Ep. apply Hne. symmetry. apply (d_inj _ _ _ _ _ _ _ _ D); auto; lia.
      - cbn [mbind res_bind]. destruct (good_from e op idm mapping comp a) as (t & -> & I); [rewrite Ha; exact Hn|]. cbn [mbind res_bind].
        exists (Hld t h), ord. split; [reflexivity|]. exists par, dep, hv, pos, posr, h. split; [exact R|]. split; [exact D|]. split; [exact Hord|].
        split; [reflexivity|]. split; [rewrite fresh_length; exact Hw|]. exists (fresh a). split; [exact I|]. split; [rewrite fresh_length; exact Ha|].
        intros v Hvn. rewrite !fresh_lookup, Hv by lia. reflexivity.
    Qed.
    Lemma built_any_ord x w ord : built_any x w ord -> visiting_order g root ord /\ HldProps.places ord (h_pos (hd_tree x)).
    Proof.
      intros (par & dep & hv & pos & posr & h & R & D & Hord & Hx & _). split; [eapply ord_visiting; eauto|]. rewrite Hx.
      pose proof (hw_pos _ _ (d_wf _ _ _ _ _ _ _ _ D)) as Hl. split; [rewrite Hl; symmetry; eapply ord_length; eauto|].
      intros v p. rewrite Hord. split.
      - intros H. assert (v < n) as Hv by (apply lookup_lt_Some in H; lia). rewrite (d_pos _ _ _ _ _ _ _ _ D v Hv) in H. injection H as <-. auto.
      - intros [Hv <-]. apply (d_pos _ _ _ _ _ _ _ _ D v Hv).
    Qed.
  End Build.
End HldFree.

Lemma hld_any_history {S F : Type} (e : S) (op : S -> S -> S) (idm : F) (mapping : F -> S -> S) (comp : F -> F -> F) g root w x :
  hld_built e op idm g root w x ->
  exists y ord, x = Ok y /\ visiting_order g root ord /\ HldProps.places ord (h_pos (hd_tree y)) /\
    forall ops, match run (hld_step e op idm mapping comp) y ops with
    | Ok (_, outs) => exists w', allowed_run (hld_any e op idm mapping comp g root ord (by_pieces g root ord)) (fresh w) ops (Ok (w', outs))
    | Panic => allowed_run (hld_any e op idm mapping comp g root ord (by_pieces g root ord)) (fresh w) ops Panic
    | Diverge => False
    end.
Proof.
  intros (T & Hr & Hn & H). assert (exists y ord, x = Ok y /\ built_any e op idm mapping comp g root y (fresh w) ord) as (y & ord & -> & B).
  { destruct H as [[Hw ->]|[-> ->]].
    - destruct (with_init_built_any e op idm mapping comp g root T Hr Hn w Hw) as (y & ord & -> & B). eauto.
    - destruct (new_built_any e op idm mapping comp g root T Hr Hn) as (y & ord & -> & B). eauto. }
  exists y, ord. split; [reflexivity|]. assert (visiting_order g root ord /\ HldProps.places ord (h_pos (hd_tree y))) as [V P] by (eapply built_any_ord; eauto). split; [exact V|]. split; [exact P|].
  destruct B as (par & dep & hv & pos & posr & h & R & D & Hord & HI). intros ops. pose proof (hld_any_run e op idm mapping comp g root par dep R h hv pos posr D ord Hord Hn ops y (fresh w) HI) as A.
  destruct (run (hld_step e op idm mapping comp) y ops) as [[y' outs]| |]; [|exact A|exact A]. destruct A as (w' & A & _). eauto.
Qed.
