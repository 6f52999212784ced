(** C85: data structures over functions with side effects, and how often they call them. *)
From stdpp Require Import relations.
From Verif Require Import Prelude Eff UtilModel ArraySpec SegtreeSpec SegtreeModel SegtreeProof SegtreeChkModel SegtreeEffModel LazySpec LazyModel LazyChkModel LazyEffModel LazyProps
  FenwickSpec FenwickModel FenwickProof FenwickChkModel FenwickEffModel FenwickProps SparseSpec SparseModel SparseChkModel SparseEffModel SparseProps EffSpec SegtreeEffProof LazyEffProof FenwickEffProof.

(** C85: whatever the functions are, obeying laws or not, the side effects change neither the answers nor the panics, and the
    functions are called at most as often as EffSpec.v says.  ([*c] is the function without its side effects, which may panic.) *)
Theorem C85_same_code : forall {W S F : Type} (R : relation W) (e : S) (idm : F) (opc : S -> S -> res S) (mappingc : F -> S -> res S) (compc : F -> F -> res F) opE mappingE compE,
  (forall a, acts_res R (opc a) (opE a)) -> (forall f, acts_res R (mappingc f) (mappingE f)) -> (forall f, acts_res R (compc f) (compE f)) ->
  (forall v (ops : list (ef_op W S Empty_set)), Forall (pred_ok R) ops ->
     same_within R (2 * length v + sum_list_with (segtree_calls (length v)) (plain <$> ops))
       (t <* ste_from e opE v ;* erun (ste_step e opE) t ops) (t ← stc_from e opc v; run (stc_call e opc) t (plain <$> ops))) /\
  (forall v (ops : list (ef_op W S F)), Forall (pred_ok R) ops ->
     same_within R (2 * length v + sum_list_with (lazy_calls (length v)) (plain <$> ops))
       (t <* lte_from e opE idm v ;* erun (lte_step e opE idm mappingE compE) t ops)
       (t ← ltc_from e opc idm v; run (ltc_step e opc idm mappingc compc) t (plain <$> ops))) /\
  (forall a (ops : list (fw_op S F)) subc subE adduc adduE, (forall a, acts_res R (subc a) (subE a)) -> (forall a, acts_res R (adduc a) (adduE a)) ->
     same_within R (2 * length a + sum_list_with (fenwick_calls (length a)) ops)
       (t <* fwe_from e opE a ;* erun (fwe_step e opE subE adduE) t ops) (t ← fwc_from e opc a; run (fwc_step e opc subc adduc) t ops)) /\
  (forall v init, same_within R (length v * Nat.log2 (length v)) (spe_from opE v init) (spc_from opc v init)) /\
  (forall data l r, same_within R 1 (spe_get opE data l r) (spc_get opc data l r)).
Proof.
  intros W S F R e idm opc mappingc compc opE mappingE compE A AM AC.
  pose proof (fun a => acts_res_spends R _ _ (A a)) as A'. pose proof (fun a => acts_res_spends R _ _ (AM a)) as AM'. pose proof (fun a => acts_res_spends R _ _ (AC a)) as AC'.
  split; [|split; [|split; [|split]]].
  - intros v ops P. apply spends_same. eapply spends_weak; [apply history_spends; eassumption|lia|auto].
  - intros v ops P. apply spends_same. eapply spends_weak; [apply lhistory_spends; eassumption|lia|auto].
  - intros a ops subc subE adduc adduE AS AU. apply spends_same. apply fhistory_spends; [exact A'|exact (fun a => acts_res_spends R _ _ (AS a))|exact (fun a => acts_res_spends R _ _ (AU a))].
  - intros v init. apply spends_same, sfrom_spends, A'.
  - intros data l r. apply spends_same, sget_spends, A'.
Qed.
Print Assumptions C85_same_code.

Section Plain.
  Context {S : Type} (e : S) (op : S -> S -> S) (L : monoid_laws e op).
  Let no_map : Empty_set -> S -> S := fun f => match f with end.
  Let opc (a b : S) : res S := Ok (op a b).

  Lemma call_allowed t a o : Inv e op t a ->
    (exists t' a' out, stc_call e opc t o = Ok (t', out) /\ lz_allowed e op no_map a o (Ok (a', out)) /\ Inv e op t' a') \/
    (stc_call e opc t o = Panic /\ lz_allowed e op no_map a o Panic).
  Proof.
    intros I. pose proof (inv_n _ _ _ _ I) as Hn. destruct o as [p x|p|l r| |p []|l r []|l g|r g]; cbn [stc_call lz_allowed lz_spec_step].
    - change (stc_set opc t p x) with (st_set op t p x). pose proof (step_refines e op L t a (SgSet p x) I) as H. cbn [sg_spec_step st_step] in H.
      destruct (p <? length a).
      + destruct H as (t' & E & I'). left. apply rbind_ok_inv in E as (t1 & E1 & E). injection E as ->. rewrite E1. cbn [mbind res_bind]. eauto 10.
      + right. destruct (st_set op t p x); [discriminate|split; reflexivity|discriminate].
    - pose proof (step_refines e op L t a (SgGet p) I) as H. cbn [sg_spec_step st_step] in H. destruct (a !! p) as [y|].
      + destruct H as (t' & E & I'). left. apply rbind_ok_inv in E as (x & E1 & E). injection E as <- ->. rewrite E1. cbn [mbind res_bind]. eauto 10.
      + right. destruct (st_get t p); [discriminate|split; reflexivity|discriminate].
    - change (stc_prod e opc t l r) with (st_prod e op t l r). pose proof (step_refines e op L t a (SgProd l r) I) as H. cbn [sg_spec_step st_step] in H.
      destruct (_ && _).
      + destruct H as (t' & E & I'). left. apply rbind_ok_inv in E as (x & E1 & E). injection E as <- ->. rewrite E1. cbn [mbind res_bind]. eauto 10.
      + right. destruct (st_prod e op t l r); [discriminate|split; reflexivity|discriminate].
    - rewrite (all_prod_ok e op L t a I). cbn [mbind res_bind]. left. eauto 10.
    - change (stc_max_right e opc t l g) with (st_max_right e op t l g). destruct (Nat.leb_spec l (length a)) as [Hl|Hl]; [destruct (g e) eqn:Hg|]; cbn [andb].
      + destruct (max_right_ok e op L t a I l g ltac:(lia) Hg) as (r & -> & P). cbn [mbind res_bind]. left. exists t, a, (LzIdx r). split; [reflexivity|]. split; [|exact I].
        exists r. split; [reflexivity|]. split; [exact P|]. intros M j Hj Hf. eapply max_right_is_max; eassumption.
      + right. rewrite (max_right_panic e op t l g) by auto. split; reflexivity.
      + right. rewrite (max_right_panic e op t l g) by lia. split; reflexivity.
    - change (stc_min_left e opc t r g) with (st_min_left e op t r g). destruct (Nat.leb_spec r (length a)) as [Hl|Hl]; [destruct (g e) eqn:Hg|]; cbn [andb].
      + destruct (min_left_ok e op L t a I r g ltac:(lia) Hg) as (l & -> & P). cbn [mbind res_bind]. left. exists t, a, (LzIdx l). split; [reflexivity|]. split; [|exact I].
        exists l. split; [reflexivity|]. split; [exact P|]. intros M j Hj Hf. eapply min_left_is_min; eassumption.
      + right. rewrite (min_left_panic e op t r g) by auto. split; reflexivity.
      + right. rewrite (min_left_panic e op t r g) by lia. split; reflexivity.
  Qed.

  Lemma run_call_allowed ops : forall t a, Inv e op t a ->
    lz_allowed_run e op no_map a ops (snd <$> run (stc_call e opc) t ops) /\ run (stc_call e opc) t ops <> Diverge.
  Proof.
    induction ops as [|o ops IH]; intros t a I; cbn [run]; [split; [constructor|discriminate]|].
    destruct (call_allowed t a o I) as [(t' & a' & out & -> & HA & I')|[-> HA]]; cbn [mbind res_bind].
    - destruct (IH t' a' I') as [H D]. destruct (run (stc_call e opc) t' ops) as [[t2 outs]| |]; cbn [mbind res_bind]; [| |contradiction].
      + split; [|discriminate]. cbn. eapply lar_ok; eassumption.
      + split; [|discriminate]. cbn. eapply lar_later; eassumption.
    - split; [|discriminate]. cbn. apply lar_panic. exact HA.
  Qed.
End Plain.

(** C85: Segtree over an operation and predicates that act on a state: the answers are those of a plain array, and the functions are
    called O(n) times to build it and O(log n) times per call. *)
Theorem C85_segtree : forall {W S : Type} (R : relation W) (e : S) (op : S -> S -> S) opE, monoid_laws e op -> (forall a, acts R (op a) (opE a)) ->
  forall v (ops : list (ef_op W S Empty_set)), (Z.of_nat (length v) < 2 ^ 32)%Z -> Forall (pred_ok R) ops ->
  answers_within R (2 * length v + sum_list_with (segtree_calls (length v)) (plain <$> ops))
    (t <* ste_from e opE v ;* erun (ste_step e opE) t ops)
    (lz_allowed_run e op (fun f : Empty_set => match f with end) v (plain <$> ops)).
Proof.
  intros W S R e op opE L A v ops Hv P.
  destruct (st_from_inv e op v Hv) as (t & Et & I). destruct (run_call_allowed e op L (plain <$> ops) t v I) as [HA HD].
  assert ((t ← stc_from e (fun a b => Ok (op a b)) v; run (stc_call e (fun a b => Ok (op a b))) t (plain <$> ops)) = run (stc_call e (fun a b => Ok (op a b))) t (plain <$> ops)) as E.
  { change (stc_from e (fun a b => Ok (op a b)) v) with (st_from e op v). rewrite Et. reflexivity. }
  eapply (same_answers R _ _ (run (stc_call e (fun a b => Ok (op a b))) t (plain <$> ops))); [|exact HA|exact HD]. rewrite <- E.
  apply spends_same. eapply spends_weak; [apply history_spends; [|exact P]|lia|auto]. intros a. exact (acts_spends R _ _ (A a)).
Qed.
Print Assumptions C85_segtree.

(** C85: the same for LazySegtree, the mapping and the composition included. *)
Theorem C85_lazy : forall {W S F : Type} (R : relation W) (e : S) (op : S -> S -> S) (idm : F) (mapping : F -> S -> S) (comp : F -> F -> F) opE mappingE compE,
  monoid_laws e op -> map_laws op idm mapping comp ->
  (forall a, acts R (op a) (opE a)) -> (forall f, acts R (mapping f) (mappingE f)) -> (forall f, acts R (comp f) (compE f)) ->
  forall v (ops : list (ef_op W S F)), (Z.of_nat (length v) < 2 ^ 32)%Z -> Forall (pred_ok R) ops ->
  answers_within R (2 * length v + sum_list_with (lazy_calls (length v)) (plain <$> ops))
    (t <* lte_from e opE idm v ;* erun (lte_step e opE idm mappingE compE) t ops)
    (lz_allowed_run e op mapping v (plain <$> ops)).
Proof.
  intros W S F R e op idm mapping comp opE mappingE compE L ML A AM AC v ops Hv P.
  pose proof (C05_lazy_searches e op idm mapping comp L ML v (plain <$> ops) Hv) as HA.
  eapply (same_answers R _ _ (t ← ltc_from e (fun a b => Ok (op a b)) idm v; run (ltc_step e (fun a b => Ok (op a b)) idm (fun f x => Ok (mapping f x)) (fun f g => Ok (comp f g))) t (plain <$> ops))).
  - apply spends_same. eapply spends_weak; [apply lhistory_spends; [| | |exact P]|lia|auto]; intros a; [exact (acts_spends R _ _ (A a))|exact (acts_spends R _ _ (AM a))|exact (acts_spends R _ _ (AC a))].
  - exact HA.
  - intros E. change (t ← ltc_from e (fun a b => Ok (op a b)) idm v; run (ltc_step e (fun a b => Ok (op a b)) idm (fun f x => Ok (mapping f x)) (fun f g => Ok (comp f g))) t (plain <$> ops))
      with (t ← lt_from e op idm v; run (lt_step e op idm mapping comp) t (plain <$> ops)) in E. rewrite E in HA. cbn in HA. inversion HA.
Qed.
Print Assumptions C85_lazy.

(** The same for the other two constructors: new(n) is the array of n units, default() the empty array. *)
Theorem C85_lazy_constructors : forall {W S F : Type} (R : relation W) (e : S) (op : S -> S -> S) (idm : F) (mapping : F -> S -> S) (comp : F -> F -> F) opE mappingE compE,
  monoid_laws e op -> map_laws op idm mapping comp ->
  (forall a, acts R (op a) (opE a)) -> (forall f, acts R (mapping f) (mappingE f)) -> (forall f, acts R (comp f) (compE f)) ->
  forall n (ops : list (ef_op W S F)), (Z.of_nat n < 2 ^ 32)%Z -> Forall (pred_ok R) ops ->
  answers_within R (2 * n + sum_list_with (lazy_calls n) (plain <$> ops))
    (t <* lte_new e opE idm n ;* erun (lte_step e opE idm mappingE compE) t ops)
    (lz_allowed_run e op mapping (replicate n e) (plain <$> ops)) /\
  answers_within R (sum_list_with (lazy_calls 0) (plain <$> ops))
    (t <* lte_default e opE idm ;* erun (lte_step e opE idm mappingE compE) t ops)
    (lz_allowed_run e op mapping [] (plain <$> ops)).
Proof.
  intros W S F R e op idm mapping comp opE mappingE compE L ML A AM AC n ops Hn P.
  pose proof (fun v => C85_lazy R e op idm mapping comp opE mappingE compE L ML A AM AC v ops) as H. split.
  - specialize (H (replicate n e)). rewrite replicate_length in H. exact (H Hn P).
  - exact (H [] ltac:(cbn; lia) P).
Qed.
Print Assumptions C85_lazy_constructors.

(** C85: FenwickTree over additions, a subtraction and a predicate that act on a state. *)
Theorem C85_fenwick : forall {W T U : Type} (R : relation W) (zero : T) (add sub : T -> T -> T) (addu : T -> U -> T) addE subE adduE,
  fw_laws zero add addu -> (forall a, acts R (add a) (addE a)) -> (forall a, acts R (sub a) (subE a)) -> (forall a, acts R (addu a) (adduE a)) ->
  forall a (ops : list (fw_op T U)),
  answers_within R (2 * length a + sum_list_with (fenwick_calls (length a)) ops)
    (t <* fwe_from zero addE a ;* erun (fwe_step zero addE subE adduE) t ops)
    (fun answers => answers = snd <$> run (fw_spec_step zero add sub addu) a ops) /\
  (forall t a' outs outs' w w', (t <* fwe_from zero addE a ;* erun (fwe_step zero addE subE adduE) t ops) w = Ok (t, outs, w') ->
     run (fw_spec_step zero add sub addu) a ops = Ok (a', outs') -> 0 < length a -> (Z.of_nat (length a) < 2 ^ 64)%Z ->
     forall pred predE, acts R pred predE -> exists k, k <= length a' /\
       (0 < k -> pred (prefix_sum zero add a' (k - 1)) = true) /\ (k < length a' -> pred (prefix_sum zero add a' k) = false) /\
       same_within R (3 * (Nat.log2 (length a) + 1)) (fwe_partition_point zero addE t predE) (Ok k)).
Proof.
  intros W T U R zero add sub addu addE subE adduE L A AS AU a ops.
  pose proof (fun a => acts_spends R _ _ (A a)) as A'. pose proof (fun a => acts_spends R _ _ (AS a)) as AS'. pose proof (fun a => acts_spends R _ _ (AU a)) as AU'.
  pose proof (fhistory_spends R zero addE subE adduE _ _ _ A' AS' AU' a ops) as HS. pose proof (fenwick_refines zero add sub addu L a ops) as HF.
  set (plainrun := (t ← fwc_from zero (fun x y => Ok (add x y)) a; run (fwc_step zero (fun x y => Ok (add x y)) (fun x y => Ok (sub x y)) (fun x u => Ok (addu x u))) t ops)) in HS.
  change (snd <$> plainrun = snd <$> run (fw_spec_step zero add sub addu) a ops) in HF. split.
  - eapply same_answers; [apply spends_same, HS|exact HF|]. intros E. rewrite E in HF. cbn in HF.
    destruct L as [LM LC LU]. destruct (fw_from_inv zero add LM a) as (t & Et & I). pose proof (fw_run_refines zero add sub addu LM LC LU ops t a I) as H.
    destruct (run (fw_spec_step zero add sub addu) a ops) as [[? ?]| |]; [discriminate|discriminate|contradiction].
  - intros t a' outs outs' w w' Ht Ha Hlen H64 pred predE P. specialize (HS w). destruct plainrun as [[t1 outs1]| |] eqn:EP; [|rewrite Ht in HS; discriminate|rewrite Ht in HS; discriminate].
    destruct HS as (w1 & k & E & _ & _). rewrite Ht in E. injection E as -> -> ->. pose proof (fhistory_shape zero _ _ _ a ops t1 outs1 EP) as Sh.
    assert (length a' = length a) as Hla.
    { clear -Ha. revert a outs' Ha. induction ops as [|o ops IH]; intros a outs' Ha; cbn [run] in Ha; [injection Ha as <- _; reflexivity|].
      apply rbind_ok_inv in Ha as ([a1 out] & E1 & E). apply rbind_ok_inv in E as ([a2 outs2] & E2 & E). injection E as <- _. rewrite (IH _ _ E2).
      destruct o as [i u|i|l r]; cbn in E1; repeat case_match; try discriminate; injection E1 as <- _; rewrite ?insert_length; reflexivity. }
    destruct (C07_partition_point_boundary zero add sub addu L a ops t1 a' pred) as (k' & E & H1 & H2 & H3); [|lia|lia|].
    { split; [exists outs1; exact EP|exists outs'; exact Ha]. }
    exists k'. repeat split; try assumption. apply spends_same. pose proof (partition_point_spends R zero addE _ A' (length a) t1 pred predE Sh P) as HP.
    change (fwc_partition_point zero (fun x y => Ok (add x y)) t1 pred) with (fw_partition_point zero add t1 pred) in HP. rewrite E in HP. exact HP.
Qed.
Print Assumptions C85_fenwick.

(** C85: SparseTable over a closure that acts on a state; get calls it exactly once. *)
Theorem C85_sparse : forall {W T : Type} (R : relation W) (op : T -> T -> T) opE, (forall x y z, op x (op y z) = op (op x y) z) -> (forall x, op x x = x) ->
  (forall a, acts R (op a) (opE a)) -> forall (v : list T) (init : T), 0 < length v -> (Z.of_nat (length v) < 2 ^ 64)%Z ->
  exists data, same_within R (length v * Nat.log2 (length v)) (spe_from opE v init) (Ok data) /\
    (forall l r w, l < r <= length v -> exists x w', spe_get opE data l r w = Ok (x, w') /\ R w w' /\ fold1 op (slice v l r) = Some x) /\
    (forall l r w, r <= l -> spe_get opE data l r w = Panic).
Proof.
  intros W T R op opE HA Idem A v init Hn H64. destruct (C08_sparse_table op HA v init Idem Hn H64) as (data & E & HG & HP). exists data. split; [|split].
  - pose proof (sfrom_spends R opE (fun a b => Ok (op a b)) (fun a => acts_spends R _ _ (A a)) v init) as H. change (spc_from (fun a b => Ok (op a b)) v init) with (sp_from v init op) in H.
    rewrite E in H. apply spends_same, H.
  - intros l r w Hlr. destruct (HG l r Hlr) as (x & Ex & Hx). unfold sp_get in Ex. unfold spe_get.
    apply rbind_ok_inv in Ex as (? & E1 & Ex). apply rbind_ok_inv in Ex as (c & E2 & Ex). apply rbind_ok_inv in Ex as (y & E3 & Ex). apply rbind_ok_inv in Ex as (j & E4 & Ex).
    apply rbind_ok_inv in Ex as (z & E5 & Ex). injection Ex as <-. unfold ebind, elift. rewrite E1. cbn [mbind res_bind]. rewrite E2. cbn [mbind res_bind]. rewrite E3. cbn [mbind res_bind].
    rewrite E4. cbn [mbind res_bind]. rewrite E5. cbn [mbind res_bind]. destruct (A y z w) as (w' & Ew & Hw). exists (op y z), w'. auto.
  - intros l r w Hlr. unfold spe_get, ebind, elift. destruct (Nat.ltb_spec l r); [lia|reflexivity].
Qed.
Print Assumptions C85_sparse.

(** An addition that writes down its arguments, a predicate that counts *)
Definition logged (a b : Z) : eff (list (Z * Z) * nat) Z := fun w => Ok ((a + b)%Z, ((a, b) :: w.1, w.2)).
Definition asked (g : Z -> bool) (x : Z) : eff (list (Z * Z) * nat) bool := fun w => Ok (g x, (w.1, w.2 + 1)).
Definition one_more (w w' : list (Z * Z) * nat) : Prop := length w'.1 + w'.2 = length w.1 + w.2 + 1.
Example C85_nonvacuous :
  (forall a, acts one_more (Z.add a) (logged a)) /\ (forall g, acts one_more g (asked g)) /\
  exists t, (t <* ste_from 0%Z logged [1; 2; 3; 4]%Z ;* erun (ste_step 0%Z logged) t [EfProd 1 3; EfSet 0 5%Z; EfMaxRight 0 (fun x => x <? 8)%Z (asked (fun x => x <? 8)%Z)]) ([], 0)
    = Ok (t, [LzVal 5%Z; LzUnit; LzIdx 2], (rev [(3, 4); (1, 2); (3, 7); (0, 2); (3, 0); (2, 3); (5, 2); (7, 7); (0, 14); (0, 7); (7, 3)]%Z, 4)) /\
    2 * 4 + sum_list_with (segtree_calls 4) (plain (W := unit) <$> [EfProd 1 3; EfSet (F := Empty_set) 0 5%Z; EfMaxRight 0 (fun x => x <? 8)%Z (fun _ => eret true)]) = 34.
Proof.
  split; [|split].
  - intros a b w. eexists. split; [reflexivity|]. unfold one_more. cbn. lia.
  - intros g x w. eexists. split; [reflexivity|]. unfold one_more. cbn. lia.
  - eexists. split; [|reflexivity]. vm_compute. reflexivity.
Qed.
