(** The operations of the lazy segment tree against the plain array. *)
From Verif Require Import Prelude UtilModel UtilProof ArraySpec SegtreeModel SegtreeProof LazySpec LazyModel LazyProof.

Section Top.
  Context {S F : Type} (e : S) (op : S -> S -> S) (idm : F) (mapping : F -> S -> S) (comp : F -> F -> F).
  Context (L : monoid_laws e op) (ML : map_laws op idm mapping comp).
  Local Notation P := (mprod e op).
  Implicit Types (t : lazytree S F) (a : list S).

  Definition arr (log : nat) a (p : nat) : S := default e (a !! (p - 2 ^ log)).
  Definition none (_ _ : nat) : Prop := False.
  Local Notation RR log s a C := (R e op idm mapping log s (arr log a) all C).

  Record LInv t a : Prop := {
    li_n : lt_n t = length a;
    li_size : lt_size t = 2 ^ lt_log t;
    li_le : lt_n t <= lt_size t;
    li_R : RR (lt_log t) (lt_d t, lt_lz t) a none }.

  Lemma Pr_arr log a l r : l <= r -> Pr e op (arr log a) (2 ^ log + l) (2 ^ log + r) = P (slice a l r).
  Proof.
    intros H. induction H as [|r H IH].
    - rewrite Pr_nil, slice_nil by lia. reflexivity.
    - rewrite (Pr_app e op L _ _ (2 ^ log + r)) by lia. rewrite IH.
      replace (2 ^ log + Datatypes.S r) with (2 ^ log + r + 1) by lia. rewrite (Pr_one e op L).
      rewrite <- (slice_app a l r (Datatypes.S r)) by lia. rewrite (mprod_app _ _ L). f_equal.
      unfold arr. replace (2 ^ log + r - 2 ^ log) with r by lia. replace (Datatypes.S r) with (r + 1) by lia.
      destruct (a !! r) as [x|] eqn:E; cbn [default].
      + rewrite (slice_single a r x E), (mprod_single _ _ L). reflexivity.
      + unfold slice. rewrite drop_ge by (apply lookup_ge_None_1; exact E). rewrite take_nil. reflexivity.
  Qed.

  Lemma Pr_arr_full log a l r : l <= length a -> length a <= r ->
    Pr e op (arr log a) (2 ^ log + l) (2 ^ log + r) = P (slice a l (length a)).
  Proof.
    intros H1 H2. rewrite Pr_arr by lia. f_equal. unfold slice. rewrite !take_ge by (rewrite drop_length; lia).
    reflexivity.
  Qed.

  Lemma node_exists log k : 1 <= k < 2 * 2 ^ log -> exists h, node log h k.
  Proof.
    intros Hk. exists (log - Nat.log2 k). apply node_range. split; [lia|].
    assert (Nat.log2 k < Datatypes.S log) by (apply Nat.log2_lt_pow2; [lia|rewrite Nat.pow_succ_r'; lia]).
    replace (log - (log - Nat.log2 k)) with (Nat.log2 k) by lia.
    destruct (Nat.log2_spec k) as [H1 H2]; [lia|]. rewrite Nat.pow_succ_r' in H2. lia.
  Qed.

  (** The tree built over v, the places not overwritten holding z at first. *)
  Lemma build_ok z log v : length v <= 2 ^ log -> z = e \/ length v = 2 ^ log ->
    exists d s, copy_into (replicate (2 * 2 ^ log) z) (2 ^ log) v = Ok d /\
      rfor (rev (range 1 (2 ^ log))) (fun i s => lt_update op s i) (d, replicate (2 ^ log) idm) = Ok s /\ RR log s v none.
  Proof.
    intros Hvs Hz. set (size := 2 ^ log) in *.
    assert (0 < size) as Hsz by apply pow2_pos.
    destruct (copy_into_ok (replicate (2 * size) z) size v) as (d & -> & Hd & Hleaf & Hout).
    { rewrite replicate_length. lia. }
    rewrite replicate_length in Hd.
    set (lz := replicate size idm).
    assert (Hidl : forall d x, idl idm mapping (d, lz) x).
    { intros d' x y. unfold Lz. cbn. destruct (lz !! x) as [f|] eqn:E; cbn.
      - apply lookup_replicate in E as [-> _]. apply (mpl_id _ _ _ _ ML).
      - apply (mpl_id _ _ _ _ ML). }
    destruct (rfor_rev_range_inv
      (fun i s => R e op idm mapping log s (arr log v) (fun _ x => i <= x) all)
      1 size (fun i s => lt_update op s i) (d, lz)) as (s & Hr & HR).
    - lia.
    - split.
      + exact Hd.
      + cbn. unfold lz. rewrite replicate_length. reflexivity.
      + intros p Hp. rewrite (val_clean e idm mapping (d, lz) 0 log p); [|lia|intros; apply Hidl].
        cbn. unfold D, arr. cbn. unfold leaf in Hp. fold size in Hp |- *.
        destruct (decide (p - size < length v)) as [H|H].
        * rewrite <- Hleaf by exact H. f_equal. f_equal. lia.
        * destruct Hz as [->|Hz]; [|lia]. rewrite Hout by lia. rewrite lookup_replicate_2 by lia. rewrite lookup_ge_None_2 by lia. reflexivity.
      + intros h x Hx Hge. assert (h = 0) as ->.
        { destruct h; [reflexivity|]. apply (node_inner log) in Hx. fold size in Hx. lia. }
        rewrite Nat.pow_0_r, !Nat.mul_1_r, (Pr_one e op L). reflexivity.
      + intros h x _ _ _. apply Hidl.
    - intros i s Hi HR.
      destruct (node_exists log i) as [h Hn]; [fold size; lia|].
      destruct h as [|h]; [apply (node_inner log) in Hn; fold size in Hn; lia|].
      destruct (R_update e op idm mapping L log s (arr log v) _ _ h i HR Hn) as (s' & E & HR'); [lia|lia|exact I|].
      exists s'. split; [exact E|]. eapply R_mono; [exact HR'|reflexivity| |auto].
      intros j x Hx Hge. destruct (decide (x = i)) as [->|]; [right|left; lia].
      split; [|reflexivity]. eapply node_uniq; eassumption.
    - exists d, s. split; [reflexivity|]. split; [exact Hr|]. eapply R_mono; [exact HR|reflexivity| |intros ? ? _ _ []].
      intros h x Hx _. apply node_range in Hx as [_ Hx]. pose proof (pow2_pos (log - h)). lia.
  Qed.

  Lemma from_inv v : (Z.of_nat (length v) < 2 ^ 32)%Z -> exists t, lt_from e op idm v = Ok t /\ LInv t v.
  Proof.
    intros Hlen. unfold lt_from. rewrite Z.mod_small by lia.
    destruct (ceil_lg_pow (Z.of_nat (length v))) as (k & Hk & Hk32 & Hle); [lia|].
    rewrite Hk. cbn [mbind res_bind].
    assert (length v <= 2 ^ Z.to_nat k) as Hvs.
    { apply Nat2Z.inj_le. rewrite Nat2Z.inj_pow, Z2Nat.id by lia. exact Hle. }
    destruct (build_ok e (Z.to_nat k) v Hvs (or_introl eq_refl)) as (d & s & -> & Hr & HR). cbn [mbind res_bind]. rewrite Hr. cbn [mbind res_bind].
    eexists. split; [reflexivity|]. split; cbn [lt_n lt_size lt_log lt_d lt_lz]; [reflexivity|reflexivity|exact Hvs|]. destruct s. exact HR.
  Qed.

  Lemma from_huge v : (2 ^ 32 <= Z.of_nat (length v))%Z -> lt_from e op idm v = Panic.
  Proof.
    intros Hlen. pose proof (st_from_huge e op v Hlen) as H. unfold st_from in H. unfold lt_from.
    destruct (ceil_lg (Z.of_nat (length v) mod 2 ^ 32)); cbn [mbind res_bind] in *; try assumption || discriminate.
    2: reflexivity.
    unfold copy_into in *. destruct (_ <=? _) eqn:Hle; cbn [mbind res_bind] in *; [|reflexivity].
    exfalso. apply Nat.leb_le in Hle. rewrite replicate_length in Hle.
    match type of H with (rfor ?xs ?b ?d0 ≫= _) = _ => set (size := 2 ^ Z.to_nat a) in *;
      destruct (rfor_rev_range_inv (fun _ d => length d = 2 * size) 1 size b d0) as (d' & E & _) end.
    - pose proof (pow2_pos (Z.to_nat a)). unfold size. lia.
    - rewrite !app_length, take_length, drop_length, replicate_length. lia.
    - intros i s Hi Hs. destruct (st_update_ok op s i) as (s' & E & El & _); [lia|lia|]. exists s'. split; [exact E|lia].
    - unfold range in H. fold size in E. rewrite E in H. discriminate.
  Qed.

  Section Ops.
    Context (t : lazytree S F) (a : list S) (I : LInv t a).
    Local Notation log := (lt_log t).
    Local Notation n := (lt_n t).

    Lemma linv_with s C b : RR log s b C -> length b = length a -> LInv (with_tree t s) b.
    Proof.
      intros HR Hb. split; cbn.
      - rewrite Hb. apply I.
      - apply I.
      - apply I.
      - destruct s. eapply R_mono; [exact HR|reflexivity|auto|intros ? ? _ _ []].
    Qed.

    Lemma leaf_of p : p < lt_size t -> leaf log (p + lt_size t).
    Proof. intros H. rewrite (li_size _ _ I) in *. split; lia. Qed.

    Lemma push_path p : p < n -> exists s, lt_push_path idm mapping comp (lt_size t) log (lt_d t, lt_lz t) (p + lt_size t) = Ok s /\
      RR log s a (on_path (p + lt_size t)).
    Proof.
      intros Hp. pose proof (li_le _ _ I). pose proof (leaf_of p ltac:(lia)) as Hl.
      destruct (push_path_ok e op idm mapping comp L ML log _ _ _ _ (li_R _ _ I) Hl) as (s & E & HR).
      exists s. split; [|exact HR]. rewrite <- E. rewrite (li_size _ _ I) at 1. reflexivity.
    Qed.

    Lemma read_leaf s p : p < n -> RR log s a (on_path (p + lt_size t)) ->
      exists x, a !! p = Some x /\ vget s.1 (p + lt_size t) = Ok x.
    Proof.
      intros Hp HR. pose proof (li_le _ _ I). pose proof (li_n _ _ I).
      destruct (lookup_lt_is_Some_2 a p) as [x Ex]; [lia|]. exists x. split; [exact Ex|].
      rewrite (R_read e op idm mapping log s _ all _ 0 (p + lt_size t) HR).
      - rewrite Nat.pow_0_r, !Nat.mul_1_r, (Pr_one e op L). unfold arr. rewrite (li_size _ _ I).
        replace (p + 2 ^ log - 2 ^ log) with p by lia. rewrite Ex. reflexivity.
      - apply leaf_node0, leaf_of. lia.
      - exact Logic.I.
      - intros j y _ [Hj ->]. split; [exact Hj|]. rewrite Nat.sub_0_r. reflexivity.
    Qed.

    Lemma write_leaf s p x : p < n -> RR log s a (on_path (p + lt_size t)) ->
      exists s', (d ← vset s.1 (p + lt_size t) x; lt_update_path op log (d, s.2) (p + lt_size t)) = Ok s' /\
        LInv (with_tree t s') (<[p := x]> a).
    Proof.
      intros Hp HR. pose proof (li_le _ _ I). pose proof (li_n _ _ I).
      pose proof (leaf_of p ltac:(lia)) as Hl.
      destruct (R_set_leaf e op idm mapping L log s _ _ _ _ x HR Hl) as [-> HR1].
      { intros j Hj. split; [lia|reflexivity]. }
      cbn [mbind res_bind].
      destruct (update_path_ok e op idm mapping L log (<[p + lt_size t := x]> s.1, s.2) (arr log (<[p := x]> a)) (p + lt_size t) Hl)
        as (s' & -> & HR2).
      - eapply R_mono; [exact HR1| |intros ? ? _ ?; split; [exact Logic.I|assumption]|auto].
        intros q Hq. unfold arr. unfold leaf in Hq. rewrite <- (li_size _ _ I) in *.
        rewrite (default_insert e a p x (q - lt_size t)) by lia.
        destruct (decide (q = p + lt_size t)), (decide (q - lt_size t = p)); try reflexivity; exfalso; lia.
      - exists s'. split; [reflexivity|]. eapply linv_with; [exact HR2|apply insert_length].
    Qed.

    Lemma set_ok p x : p < n -> exists t', lt_set op idm mapping comp t p x = Ok t' /\ LInv t' (<[p := x]> a).
    Proof.
      intros Hp. unfold lt_set. destruct (Nat.ltb_spec p n); [|lia]. cbn [rassert mbind res_bind].
      destruct (push_path p Hp) as (s & -> & HR). cbn [mbind res_bind].
      destruct (write_leaf s p x Hp HR) as (s' & E & HI).
      destruct (vset s.1 (p + lt_size t) x) as [d| |]; cbn [mbind res_bind] in *; try discriminate.
      rewrite E. cbn [mbind res_bind]. eauto.
    Qed.

    Lemma get_ok p x : a !! p = Some x -> exists t', lt_get idm mapping comp t p = Ok (t', x) /\ LInv t' a.
    Proof.
      intros Hx. assert (Hp : p < n) by (rewrite (li_n _ _ I); apply lookup_lt_Some in Hx; exact Hx).
      unfold lt_get. destruct (Nat.ltb_spec p n); [|lia]. cbn [rassert mbind res_bind].
      destruct (push_path p Hp) as (s & -> & HR). cbn [mbind res_bind].
      destruct (read_leaf s p Hp HR) as (y & Ey & ->). cbn [mbind res_bind].
      assert (y = x) as -> by congruence. eexists. split; [reflexivity|]. eapply linv_with; [exact HR|reflexivity].
    Qed.

    Lemma apply_ok p x f : a !! p = Some x ->
      exists t', lt_apply op idm mapping comp t p f = Ok t' /\ LInv t' (<[p := mapping f x]> a).
    Proof.
      intros Hx. assert (Hp : p < n) by (rewrite (li_n _ _ I); apply lookup_lt_Some in Hx; exact Hx).
      unfold lt_apply. destruct (Nat.ltb_spec p n); [|lia]. cbn [rassert mbind res_bind].
      destruct (push_path p Hp) as (s & -> & HR). cbn [mbind res_bind].
      destruct (read_leaf s p Hp HR) as (y & Ey & ->). cbn [mbind res_bind].
      assert (y = x) as -> by congruence.
      destruct (write_leaf s p (mapping f x) Hp HR) as (s' & E & HI).
      destruct (vset s.1 (p + lt_size t) _) as [d| |]; cbn [mbind res_bind] in *; try discriminate.
      rewrite E. cbn [mbind res_bind]. eauto.
    Qed.

    Lemma all_prod_ok : lt_all_prod t = Ok (P a).
    Proof.
      unfold lt_all_prod. pose proof (pow2_pos log) as Hsz. pose proof (li_le _ _ I). pose proof (li_n _ _ I).
      pose proof (li_size _ _ I).
      pose proof (R_read e op idm mapping log _ _ all _ log 1 (li_R _ _ I)) as HR. cbn [fst] in HR. rewrite HR.
      - f_equal. replace (1 * 2 ^ log) with (2 ^ log + 0) by lia. replace ((1 + 1) * 2 ^ log) with (2 ^ log + 2 ^ log) by lia.
        rewrite Pr_arr_full by lia. rewrite slice_full. reflexivity.
      - split; [lia|]. lia.
      - exact Logic.I.
      - intros j x (Hj & _) [Hj' _]. lia.
    Qed.

    Lemma prod_ok l r : l <= r <= n -> exists t', lt_prod e op idm mapping comp t l r = Ok (t', P (slice a l r)) /\ LInv t' a.
    Proof.
      intros Hlr. unfold lt_prod. pose proof (li_le _ _ I). pose proof (li_n _ _ I). pose proof (li_size _ _ I) as Hsize.
      destruct (Nat.leb_spec l r); [|lia]. destruct (Nat.leb_spec r n); [|lia]. cbn [andb rassert mbind res_bind].
      destruct (Nat.eqb_spec l r) as [->|Hne].
      { eexists. split; [rewrite slice_nil by lia; reflexivity|exact I]. }
      destruct (push_bounds_ok e op idm mapping comp L ML log _ _ _ (l + lt_size t) (r + lt_size t) true (li_R _ _ I))
        as (s & E & HR); [rewrite <- Hsize; lia|rewrite <- Hsize; lia|].
      rewrite <- Hsize in E. rewrite E. cbn [mbind res_bind].
      destruct (prod_loop_ok e op idm mapping L log s _ _ _ _ HR) as (sml & smr & -> & Hp);
        [intros; exact Logic.I|rewrite <- Hsize; lia|rewrite <- Hsize; lia|].
      cbn [mbind res_bind]. rewrite Hp. rewrite Hsize, !(Nat.add_comm _ (2 ^ log)), Pr_arr by lia.
      eexists. split; [reflexivity|]. eapply linv_with; [exact HR|reflexivity].
    Qed.

    Lemma apply_range_ok l r f : l <= r <= n ->
      exists t', lt_apply_range op idm mapping comp t l r f = Ok t' /\ LInv t' (map_range (mapping f) l r a).
    Proof.
      intros Hlr. unfold lt_apply_range. pose proof (li_le _ _ I). pose proof (li_n _ _ I). pose proof (li_size _ _ I) as Hsize.
      destruct (Nat.leb_spec l r); [|lia]. destruct (Nat.leb_spec r n); [|lia]. cbn [andb rassert mbind res_bind].
      assert (Hlen : length (map_range (mapping f) l r a) = length a) by (unfold map_range; apply imap_length).
      assert (Hlook : forall i, map_range (mapping f) l r a !! i =
        if decide (l <= i < r) then mapping f <$> a !! i else a !! i).
      { intros i. unfold map_range. rewrite list_lookup_imap. destruct (a !! i) as [x|]; cbn.
        - destruct (Nat.leb_spec l i), (Nat.ltb_spec i r); cbn; destruct (decide _); try reflexivity; exfalso; lia.
        - destruct (decide _); reflexivity. }
      destruct (Nat.eqb_spec l r) as [->|Hne].
      { eexists. split; [reflexivity|]. replace (map_range (mapping f) r r a) with a; [exact I|].
        apply list_eq. intros i. rewrite Hlook, decide_False by lia. reflexivity. }
      destruct (push_bounds_ok e op idm mapping comp L ML log _ _ _ (l + lt_size t) (r + lt_size t) false (li_R _ _ I))
        as (s & E & HR); [rewrite <- Hsize; lia|rewrite <- Hsize; lia|].
      rewrite <- Hsize in E. rewrite E. cbn [mbind res_bind].
      destruct (apply_loop_ok e op idm mapping comp L ML log s _ (l + lt_size t) (r + lt_size t) f HR) as (s1 & E1 & HR1);
        [rewrite <- Hsize; lia|rewrite <- Hsize; lia|].
      rewrite <- Hsize in E1. rewrite E1. cbn [mbind res_bind].
      destruct (update_bounds_ok e op idm mapping L log s1 (arr log (map_range (mapping f) l r a)) (l + lt_size t) (r + lt_size t))
        as (s2 & E2 & HR2).
      - eapply R_mono; [exact HR1| |auto|auto]. intros p Hp. unfold arr. unfold leaf in Hp. rewrite <- Hsize in *.
        rewrite Hlook.
        destruct (decide (l <= p - lt_size t < r)) as [Q1|Q1], (decide (l + lt_size t <= p < r + lt_size t)) as [Q2|Q2];
          try reflexivity; try (exfalso; lia).
        destruct (lookup_lt_is_Some_2 a (p - lt_size t)) as [x Ex]; [lia|]. rewrite Ex. reflexivity.
      - rewrite <- Hsize. lia.
      - rewrite <- Hsize. lia.
      - rewrite E2. cbn [mbind res_bind]. eexists. split; [reflexivity|]. eapply linv_with; [exact HR2|exact Hlen].
    Qed.

    Lemma max_right_top l g : l <= n -> g e = true ->
      exists t' r, lt_max_right e op idm mapping comp t l g = Ok (t', r) /\ LInv t' a /\ max_right_post e op a l g r.
    Proof.
      intros Hl Hg. unfold lt_max_right. pose proof (li_le _ _ I). pose proof (li_n _ _ I) as Hn. pose proof (li_size _ _ I) as Hsize.
      destruct (Nat.leb_spec l n); [|lia]. rewrite Hg. cbn [rassert mbind res_bind].
      destruct (Nat.eqb_spec l n) as [->|Hne].
      { eexists _, _. split; [reflexivity|]. split; [exact I|]. split; [lia|]. rewrite slice_nil by lia. split; [exact Hg|]. lia. }
      destruct (push_path l ltac:(lia)) as (s & -> & HR). cbn [mbind res_bind].
      destruct (max_right_ok e op idm mapping comp L ML log s _ n g (l + lt_size t) HR) as (s' & r & C & E & HR' & Hpost);
        [apply leaf_of; lia|exact Hg|].
      rewrite <- Hsize in E. rewrite E. cbn [mbind res_bind]. eexists _, _. split; [reflexivity|].
      split; [eapply linv_with; [exact HR'|reflexivity]|].
      assert (Hconv : forall b, l <= b -> Pr e op (arr log a) (l + lt_size t) (lt_size t + b) = P (slice a l b)).
      { intros b Hb. rewrite Hsize, (Nat.add_comm l). apply Pr_arr. exact Hb. }
      rewrite <- Hsize in Hpost.
      destruct Hpost as [[-> Hgt]|(Hr & Hgt & Hgf)].
      - split; [lia|]. split; [|lia]. replace (2 * lt_size t) with (lt_size t + lt_size t) in Hgt by lia.
        rewrite Hsize in Hgt. rewrite (Nat.add_comm l), Pr_arr_full in Hgt by lia. rewrite Hn. exact Hgt.
      - rewrite Hconv in Hgt by lia. replace (lt_size t + r + 1) with (lt_size t + (r + 1)) in Hgf by lia.
        rewrite Hconv in Hgf by lia.
        assert (r < n).
        { destruct (decide (r < n)) as [|Hge]; [assumption|exfalso].
          assert (E' : slice a l (r + 1) = slice a l r); [|congruence].
          unfold slice. rewrite !take_ge by (rewrite drop_length; lia). reflexivity. }
        split; [lia|]. split; [exact Hgt|]. intros _. exact Hgf.
    Qed.

    Lemma min_left_top r g : r <= n -> g e = true ->
      exists t' l, lt_min_left e op idm mapping comp t r g = Ok (t', l) /\ LInv t' a /\ min_left_post e op a r g l.
    Proof.
      intros Hr Hg. unfold lt_min_left. pose proof (li_le _ _ I). pose proof (li_n _ _ I) as Hn. pose proof (li_size _ _ I) as Hsize.
      destruct (Nat.leb_spec r n); [|lia]. rewrite Hg. cbn [rassert mbind res_bind].
      destruct (Nat.eqb_spec r 0) as [->|Hne].
      { eexists _, _. split; [reflexivity|]. split; [exact I|]. split; [lia|]. rewrite slice_nil by lia. split; [exact Hg|]. lia. }
      rewrite nsub_ok by lia. cbn [mbind res_bind].
      destruct (push_path (r - 1) ltac:(lia)) as (s & E0 & HR).
      replace (r - 1 + lt_size t) with (r + lt_size t - 1) in * by lia. rewrite E0. cbn [mbind res_bind].
      destruct (min_left_ok e op idm mapping comp L ML log s _ g (r + lt_size t) HR) as (s' & l & C & E & HR' & Hpost);
        [replace (r + lt_size t - 1) with (r - 1 + lt_size t) by lia; apply leaf_of; lia|exact Hg|].
      rewrite <- Hsize in E. rewrite E. cbn [mbind res_bind]. eexists _, _. split; [reflexivity|].
      split; [eapply linv_with; [exact HR'|reflexivity]|].
      assert (Hconv : forall b, b <= r -> Pr e op (arr log a) (lt_size t + b) (r + lt_size t) = P (slice a b r)).
      { intros b Hb. rewrite Hsize, (Nat.add_comm r). apply Pr_arr. exact Hb. }
      rewrite <- Hsize in Hpost.
      destruct Hpost as [[-> Hgt]|(Hl & Hlr & Hgt & Hgf)].
      - split; [lia|]. split; [|lia]. replace (lt_size t) with (lt_size t + 0) in Hgt at 1 by lia.
        rewrite Hconv in Hgt by lia. exact Hgt.
      - rewrite Hconv in Hgt by lia. replace (lt_size t + l - 1) with (lt_size t + (l - 1)) in Hgf by lia.
        rewrite Hconv in Hgf by lia. split; [lia|]. split; [exact Hgt|]. intros _. exact Hgf.
    Qed.

    (** Every call on a well-formed tree is allowed by the plain array. *)
    Lemma step_allowed o :
      match lt_step e op idm mapping comp t o with
      | Ok (t', out) => exists a', lz_allowed e op mapping a o (Ok (a', out)) /\ LInv t' a'
      | Panic => lz_allowed e op mapping a o Panic
      | Diverge => False
      end.
    Proof.
      pose proof (li_n _ _ I) as Hn. destruct o as [p x|p|l r| |p f|l r f|l g|r g]; cbn [lt_step lz_allowed lz_spec_step].
      - destruct (decide (p < n)) as [H|H].
        + destruct (set_ok p x H) as (t' & -> & I'). cbn [mbind res_bind].
          destruct (Nat.ltb_spec p (length a)); [|lia]. eauto.
        + unfold lt_set. destruct (Nat.ltb_spec p n); [lia|]. cbn. destruct (Nat.ltb_spec p (length a)); [lia|reflexivity].
      - destruct (a !! p) as [x|] eqn:E.
        + destruct (get_ok p x E) as (t' & -> & I'). cbn [mbind res_bind]. eauto.
        + apply lookup_ge_None_1 in E. unfold lt_get. destruct (Nat.ltb_spec p n); [lia|]. reflexivity.
      - destruct (Nat.leb_spec l r) as [H1|H1].
        + destruct (Nat.leb_spec r (length a)) as [H2|H2]; cbn [andb].
          * destruct (prod_ok l r) as (t' & -> & I'); [lia|]. cbn [mbind res_bind]. eauto.
          * unfold lt_prod. destruct (Nat.leb_spec r n); [lia|]. rewrite andb_false_r. reflexivity.
        + unfold lt_prod. destruct (Nat.leb_spec l r); [lia|]. reflexivity.
      - rewrite all_prod_ok. cbn [mbind res_bind]. eauto.
      - destruct (a !! p) as [x|] eqn:E.
        + destruct (apply_ok p x f E) as (t' & -> & I'). cbn [mbind res_bind]. eauto.
        + apply lookup_ge_None_1 in E. unfold lt_apply. destruct (Nat.ltb_spec p n); [lia|]. reflexivity.
      - destruct (Nat.leb_spec l r) as [H1|H1].
        + destruct (Nat.leb_spec r (length a)) as [H2|H2]; cbn [andb].
          * destruct (apply_range_ok l r f) as (t' & -> & I'); [lia|]. cbn [mbind res_bind]. eauto.
          * unfold lt_apply_range. destruct (Nat.leb_spec r n); [lia|]. rewrite andb_false_r. reflexivity.
        + unfold lt_apply_range. destruct (Nat.leb_spec l r); [lia|]. reflexivity.
      - destruct (Nat.leb_spec l (length a)) as [H1|H1]; cbn [andb].
        + destruct (g e) eqn:Hg.
          * destruct (max_right_top l g) as (t' & r & -> & I' & Hp); [lia|exact Hg|]. cbn [mbind res_bind].
            exists a. split; [|exact I']. exists r. split; [reflexivity|]. split; [exact Hp|]. apply max_right_is_max. exact Hp.
          * unfold lt_max_right. destruct (Nat.leb_spec l n); [|lia]. rewrite Hg. reflexivity.
        + unfold lt_max_right. destruct (Nat.leb_spec l n); [lia|]. reflexivity.
      - destruct (Nat.leb_spec r (length a)) as [H1|H1]; cbn [andb].
        + destruct (g e) eqn:Hg.
          * destruct (min_left_top r g) as (t' & l & -> & I' & Hp); [lia|exact Hg|]. cbn [mbind res_bind].
            exists a. split; [|exact I']. exists l. split; [reflexivity|]. split; [exact Hp|]. apply min_left_is_min. exact Hp.
          * unfold lt_min_left. destruct (Nat.leb_spec r n); [|lia]. rewrite Hg. reflexivity.
        + unfold lt_min_left. destruct (Nat.leb_spec r n); [lia|]. reflexivity.
    Qed.
  End Ops.

  Lemma run_allowed ops : forall t a, LInv t a ->
    lz_allowed_run e op mapping a ops (fmap snd (run (lt_step e op idm mapping comp) t ops)).
  Proof.
    induction ops as [|o ops IH]; intros t a I; cbn [run].
    - constructor.
    - pose proof (step_allowed t a I o) as H.
      destruct (lt_step e op idm mapping comp t o) as [[t' out]| |]; cbn [mbind res_bind]; [|constructor; exact H|contradiction].
      destruct H as (a' & H & I'). pose proof (IH t' a' I') as Hr.
      destruct (run (lt_step e op idm mapping comp) t' ops) as [[t2 outs]| |]; cbn [mbind res_bind fmap res_fmap] in *.
      + eapply lar_ok; eassumption.
      + eapply lar_later; eassumption.
      + exfalso. inversion Hr.
  Qed.

  (** Without searches the allowed outcome is the one of the plain array. *)
  Lemma allowed_run_eq ops : forall a r, Forall (fun o => is_search o = false) ops ->
    lz_allowed_run e op mapping a ops r -> r = fmap snd (run (lz_spec_step e op mapping) a ops).
  Proof.
    induction ops as [|o ops IH]; intros a r Hs H; inversion H; subst; cbn [run].
    - reflexivity.
    - apply Forall_cons in Hs as [Ho _]. assert (E : Panic = lz_spec_step e op mapping a o) by (destruct o; cbn in *; congruence).
      rewrite <- E. reflexivity.
    - apply Forall_cons in Hs as [Ho Hs]. assert (E : Ok (a', out) = lz_spec_step e op mapping a o) by (destruct o; cbn in *; congruence).
      rewrite <- E. cbn [mbind res_bind]. match goal with H : lz_allowed_run _ _ _ a' _ _ |- _ => apply IH in H; [|exact Hs] end.
      destruct (run _ a' ops) as [[? ?]| |]; cbn in *; congruence.
    - apply Forall_cons in Hs as [Ho Hs]. assert (E : Ok (a', out) = lz_spec_step e op mapping a o) by (destruct o; cbn in *; congruence).
      rewrite <- E. cbn [mbind res_bind]. match goal with H : lz_allowed_run _ _ _ a' _ _ |- _ => apply IH in H; [|exact Hs] end.
      destruct (run _ a' ops) as [[? ?]| |]; cbn in *; congruence.
  Qed.
End Top.
