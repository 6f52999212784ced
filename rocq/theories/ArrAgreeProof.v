From Verif Require Import Prelude UtilModel ArraySpec LazySpec LazyModel SparseSpec SparseModel SparseProof
  SegtreeSpec SegtreeModel SegtreeProof FenwickSpec FenwickModel FenwickProof FenwickProps ArrAgreeModel.

Section Lazy.
  Context {S F : Type} (e : S) (op : S -> S -> S) (mapping : F -> S -> S).

  Lemma as_lazy_run (ops : list (sg_op S)) : forall a,
    fmap snd (run (lz_spec_step (F := F) e op mapping) a (map as_lazy ops))
    = fmap (fun p => map as_lazy_out p.2) (run (sg_spec_step e op) a ops).
  Proof.
    induction ops as [|o ops IH]; intros a; [reflexivity|]. cbn [map run].
    assert (E : lz_spec_step (F := F) e op mapping a (as_lazy o) = '(a, x) ← sg_spec_step e op a o; Ok (a, as_lazy_out x)).
    { destruct o as [p x|p|l r|]; cbn; [destruct (p <? length a)|destruct (a !! p)|destruct ((l <=? r) && (r <=? length a))|]; reflexivity. }
    rewrite E. destruct (sg_spec_step e op a o) as [[a' x]| |]; cbn [mbind res_bind]; [|reflexivity|reflexivity].
    specialize (IH a').
    destruct (run (lz_spec_step e op mapping) a' (map as_lazy ops)) as [[? ?]| |], (run (sg_spec_step e op) a' ops) as [[? ?]| |];
      cbn in IH |- *; congruence.
  Qed.

  (** The range client's calls as calls of LazySegtree. *)
  Definition rg_call (o : rg_op F) : lz_op S F := match o with RgApply l r f => LzApplyRange l r f | RgGet i => LzGet i end.
  Definition rg_out (x : lz_out S) : option S := match x with LzVal x => Some x | _ => None end.

  Lemma rg_lazy_run (idm : F) (comp : F -> F -> F) (ops : list (rg_op F)) : forall t,
    fmap snd (run (rg_lazy op idm mapping comp) t ops)
    = fmap (fun p => map rg_out p.2) (run (lt_step e op idm mapping comp) t (map rg_call ops)).
  Proof.
    induction ops as [|o ops IH]; intros t; [reflexivity|]. cbn [map run].
    assert (E : rg_lazy op idm mapping comp t o = '(t, x) ← lt_step e op idm mapping comp t (rg_call o); Ok (t, rg_out x)).
    { destruct o as [l r f|i]; cbn; [destruct (lt_apply_range op idm mapping comp t l r f)|destruct (lt_get idm mapping comp t i) as [[? ?]| |]]; reflexivity. }
    rewrite E. destruct (lt_step e op idm mapping comp t (rg_call o)) as [[t' x]| |]; cbn [mbind res_bind]; [|reflexivity|reflexivity].
    specialize (IH t').
    destruct (run (rg_lazy op idm mapping comp) t' ops) as [[? ?]| |], (run (lt_step e op idm mapping comp) t' (map rg_call ops)) as [[? ?]| |];
      cbn in IH |- *; congruence.
  Qed.
End Lazy.

Section Fenwick.
  Context {T U : Type} (zero : T) (add sub : T -> T -> T) (addu : T -> U -> T) (L : fw_laws zero add addu)
    (G : forall x y, sub (add x y) x = y).
  Local Notation P := (mprod zero add).

  Lemma sf_step_ok t a o : Inv zero add t a -> (forall l r, o = FwSum l r -> l <= r) ->
    match fw_spec_step zero add sub addu a o with
    | Ok (a', x) => exists t', sf_step zero add addu (length a) t o = Ok (t', x) /\ Inv zero add t' a' /\ length a' = length a
    | r => r = Panic /\ sf_step zero add addu (length a) t o = Panic
    end.
  Proof.
    intros I Ho. destruct L as [LM LC LU]. pose proof (inv_n _ _ _ _ I) as Hn. destruct o as [i u|i|l r]; cbn [fw_spec_step sf_step].
    - destruct (a !! i) as [x|] eqn:Ei.
      + pose proof (lookup_lt_Some _ _ _ Ei). destruct (Nat.ltb_spec i (length a)); [|lia].
        rewrite (get_ok _ _ t a I), Ei. cbn [mbind res_bind].
        destruct (set_ok zero add t a I i (addu x u)) as (t' & -> & I'); [lia|]. exists t'. split; [reflexivity|].
        split; [exact I'|apply insert_length].
      + apply lookup_ge_None in Ei. destruct (Nat.ltb_spec i (length a)); [lia|]. exists t. auto.
    - destruct (Nat.leb_spec i (length a)).
      + rewrite (prod_ok zero add LM t a I) by lia. exists t. auto.
      + rewrite (prod_panic zero add t) by lia. auto.
    - specialize (Ho l r eq_refl). destruct (Nat.leb_spec r (length a)).
      + destruct (Nat.leb_spec l (length a)); [|lia]. cbn [andb]. rewrite (prod_ok zero add LM t a I) by lia. exists t.
        rewrite <- (slice_app a 0 l r), (mprod_app _ _ LM), G by lia. auto.
      + rewrite andb_false_r. rewrite (prod_panic zero add t) by lia. auto.
  Qed.

  Lemma sf_run_ok ops : forall t a, Inv zero add t a -> Forall (fun o => forall l r, o = FwSum l r -> l <= r) ops ->
    match run (fw_spec_step zero add sub addu) a ops with
    | Ok (a', outs) => exists t', run (sf_step zero add addu (length a)) t ops = Ok (t', outs) /\ Inv zero add t' a'
    | r => r = Panic /\ run (sf_step zero add addu (length a)) t ops = Panic
    end.
  Proof.
    induction ops as [|o ops IH]; intros t a I Ho; cbn [run]; [exists t; auto|]. inversion Ho as [|? ? Ho1 Ho2]; subst.
    pose proof (sf_step_ok t a o I Ho1) as H.
    destruct (fw_spec_step zero add sub addu a o) as [[a' x]| |]; cbn [mbind res_bind]; [|destruct H as [_ ->]; auto|destruct H; discriminate].
    destruct H as (t' & -> & I' & Hl). cbn [mbind res_bind]. specialize (IH t' a' I' Ho2). rewrite Hl in IH.
    destruct (run (fw_spec_step zero add sub addu) a' ops) as [[a'' outs]| |]; cbn [mbind res_bind]; [|destruct IH as [_ ->]; auto|destruct IH; discriminate].
    destruct IH as (t'' & -> & I''). exists t''. auto.
  Qed.
End Fenwick.

Section Differences.
  Context {S F : Type} (e : S) (op : S -> S -> S) (mapping : F -> S -> S) (zero : F) (add : F -> F -> F) (neg : F -> F)
    (LM : monoid_laws zero add) (LC : forall x y, add x y = add y x) (LN : forall x, add x (neg x) = zero)
    (MI : forall x, mapping zero x = x) (MC : forall f g x, mapping (add f g) x = mapping f (mapping g x)).
  Local Notation P := (mprod zero add).

  Lemma prefix_add (d : list F) l f k : k <= length d ->
    P (slice (match d !! l with Some x => <[l := add x f]> d | None => d end) 0 k) = if l <? k then add (P (slice d 0 k)) f else P (slice d 0 k).
  Proof.
    intros Hk. destruct (d !! l) as [x|] eqn:El.
    - destruct (Nat.ltb_spec l k).
      + apply (P_update zero add LM d 0 k l x _ f); [lia|lia|exact LC|exact El|reflexivity].
      + f_equal. apply slice_ext. intros i Hi. apply list_lookup_insert_ne. lia.
    - apply lookup_ge_None in El. destruct (Nat.ltb_spec l k); [lia|reflexivity].
  Qed.

  Definition diffs (v a : list S) (d : list F) : Prop :=
    length d = length v /\ length a = length v /\
    forall i x, v !! i = Some x -> a !! i = Some (mapping (P (slice d 0 (i + 1))) x).

  Lemma rg_step_ok v t a d o : FInv zero add t d -> diffs v a d ->
    (forall l r f, o = RgApply l r f -> l <= r <= length v) ->
    match lz_spec_step e op mapping a (rg_call o) with
    | Ok (a', x) => exists t' d', rg_fenwick zero add neg mapping v t o = Ok (t', rg_out x) /\ FInv zero add t' d' /\ diffs v a' d'
    | r => r = Panic /\ rg_fenwick zero add neg mapping v t o = Panic
    end.
  Proof.
    intros I (Hd & Ha & Hv) Ho.
    assert (LU : forall x u, add x u = add x (add zero u)) by (intros; rewrite (ml_idl _ _ LM); reflexivity).
    destruct o as [l r f|i]; cbn [rg_call lz_spec_step rg_fenwick].
    - specialize (Ho l r f eq_refl). destruct (Nat.leb_spec l r); [|lia]. destruct (Nat.leb_spec r (length a)); [|lia]. cbn [andb].
      destruct (add_ok zero add add add LM t d I l f LC LU) as (t1 & -> & I1). cbn [mbind res_bind].
      set (d1 := match d !! l with Some x => <[l := add x f]> d | None => d end) in *.
      assert (Hd1 : length d1 = length d) by (unfold d1; destruct (d !! l); rewrite ?insert_length; reflexivity).
      destruct (add_ok zero add add add LM t1 d1 I1 r (neg f) LC LU) as (t2 & -> & I2). cbn [mbind res_bind].
      set (d2 := match d1 !! r with Some x => <[r := add x (neg f)]> d1 | None => d1 end) in *.
      assert (Hd2 : length d2 = length d1) by (unfold d2; destruct (d1 !! r); rewrite ?insert_length; reflexivity).
      exists t2, d2. split; [reflexivity|]. split; [exact I2|]. split; [lia|].
      split; [unfold map_range; rewrite imap_length; exact Ha|].
      intros i x Hi. pose proof (lookup_lt_Some _ _ _ Hi). unfold map_range. rewrite list_lookup_imap, (Hv i x Hi). cbn. f_equal.
      unfold d2. rewrite prefix_add by lia. unfold d1. rewrite prefix_add by lia.
      destruct (Nat.leb_spec l i), (Nat.ltb_spec i r), (Nat.ltb_spec r (i + 1)), (Nat.ltb_spec l (i + 1)); cbn [andb]; try lia; try reflexivity.
      + rewrite LC, MC. reflexivity.
      + rewrite <- (ml_assoc _ _ LM), LN, (ml_idr _ _ LM). reflexivity.
    - destruct (v !! i) as [x|] eqn:Hi.
      + rewrite (Hv i x Hi). exists t, d. pose proof (lookup_lt_Some _ _ _ Hi).
        rewrite (pref_ok zero add LM t d I) by (exact LC || lia). cbn [mbind res_bind].
        rewrite (vget_ok v i x Hi). cbn [mbind res_bind]. split; [reflexivity|]. split; [exact I|]. split; auto.
      + apply lookup_ge_None in Hi. rewrite (lookup_ge_None_2 a i) by lia.
        rewrite (pref_panic zero add t d I) by lia. auto.
  Qed.

  Lemma rg_run_ok v ops : forall t a d, FInv zero add t d -> diffs v a d ->
    Forall (fun o => forall l r f, o = RgApply l r f -> l <= r <= length v) ops ->
    fmap snd (run (rg_fenwick zero add neg mapping v) t ops)
    = fmap (fun p => map rg_out p.2) (run (lz_spec_step e op mapping) a (map rg_call ops)).
  Proof.
    induction ops as [|o ops IH]; intros t a d I D Ho; [reflexivity|]. inversion Ho as [|? ? Ho1 Ho2]; subst. cbn [map run].
    pose proof (rg_step_ok v t a d o I D Ho1) as H.
    destruct (lz_spec_step e op mapping a (rg_call o)) as [[a' x]| |]; cbn [mbind res_bind]; [|destruct H as [_ ->]; reflexivity|destruct H; discriminate].
    destruct H as (t' & d' & -> & I' & D'). cbn [mbind res_bind]. specialize (IH t' a' d' I' D' Ho2).
    destruct (run (rg_fenwick zero add neg mapping v) t' ops) as [[? ?]| |], (run (lz_spec_step e op mapping) a' (map rg_call ops)) as [[? ?]| |];
      cbn in IH |- *; congruence.
  Qed.

  Lemma diffs_new v : diffs v v (replicate (length v) zero).
  Proof.
    split; [apply replicate_length|]. split; [reflexivity|]. intros i x Hi. rewrite Hi. f_equal. pose proof (lookup_lt_Some _ _ _ Hi).
    assert (E : slice (replicate (length v) zero) 0 (i + 1) = replicate (i + 1) zero).
    { unfold slice. rewrite drop_0, take_replicate. f_equal. lia. }
    rewrite E, (mprod_replicate_e _ _ LM), MI. reflexivity.
  Qed.
End Differences.

Lemma fold1_mprod {T} (e : T) op (L : monoid_laws e op) l x : fold1 op l = Some x -> mprod e op l = x.
Proof.
  intros H. destruct l as [|y l]; [discriminate|]. cbn in H. injection H as <-. unfold mprod. cbn.
  revert y. induction l as [|z l IH]; intros y; cbn; [apply (ml_idr _ _ L)|]. rewrite (ml_assoc _ _ L). apply IH.
Qed.
