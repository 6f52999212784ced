(** C90: HLD over functions that may panic and over functions with side effects, and how often it calls them. *)
From stdpp Require Import relations.
From Verif Require Import Prelude Eff IntModel UtilModel ArraySpec LazySpec LazyModel LazyTop LazyProps LazyChkModel LazyEffModel PartialOps EffSpec SegtreeEffProof LazyEffProof LazyChkProps EffProps
  TreeSpec TreeProof LiftProps HldSpec HldModel HldTree HldProof HldOps HldProps HldChkModel HldChkProof HldEffSpec HldEffModel HldEffProof.

(** C90: over functions that compute what lawful functions say or panic, a history of calls on a tree answers as C30 allows or panics;
    it never answers wrong and never fails to return.  The order of the field data is fixed before the history. *)
Theorem C90_never_wrong : forall {S F : Type} (e : S) (op : S -> S -> S) (idm : F) (mapping : F -> S -> S) (comp : F -> F -> F),
  monoid_laws e op -> map_laws op idm mapping comp ->
  forall (opc : S -> S -> res S) (mappingc : F -> S -> res S) (compc : F -> F -> res F),
  or_panics op opc -> or_panics mapping mappingc -> or_panics comp compc ->
  forall g root, is_tree g -> root < length g -> (Z.of_nat (length g) < 2 ^ 32)%Z ->
  forall w x, (length w = length g /\ x = hldc_with_init e opc idm g root w \/ w = replicate (length g) e /\ x = hldc_new e opc idm g root) ->
  x = Panic \/
  exists y ord, x = Ok y /\ visiting_order g root ord /\ places ord (h_pos (hd_tree y)) /\
    forall ops, let answers := fmap snd (run (hldc_step e opc idm mappingc compc) y ops) in
      hld_allowed_run e op mapping g root ord (by_pieces g root ord) w ops answers \/ answers = Panic.
Proof.
  intros S F e op idm mapping comp L ML opc mappingc compc O OM OC g root T Hr Hn w x Hx.
  assert (exists x', hld_built e op idm g root w x' /\ le_res x x') as (x' & B & Hle).
  { destruct Hx as [[Hw ->]|[-> ->]].
    - exists (hld_with_init e op idm g root w). split; [|apply le_hld_with_init; exact O]. split; [exact T|]. split; [exact Hr|]. split; [exact Hn|]. left. auto.
    - exists (hld_new e op idm g root). split; [|apply le_hld_new; exact O]. split; [exact T|]. split; [exact Hr|]. split; [exact Hn|]. right. auto. }
  destruct (C30_history e op idm mapping comp L ML g root w x' B) as (y & ord & E & V & P & H). destruct Hle as [Hle|Hle]; [|left; exact Hle]. right.
  exists y, ord. split; [congruence|]. split; [exact V|]. split; [exact P|]. intros ops answers.
  assert (le_res answers (fmap snd (run (hld_step e op idm mapping comp) y ops))) as [Ea|Ea]; [|left; rewrite Ea; apply H|right; exact Ea].
  apply le_fmap, le_run. intros s o. apply le_hld_step; assumption.
Qed.
Print Assumptions C90_never_wrong.

(** C90: whatever the functions are, obeying laws or not, on a tree the side effects change neither the answers nor the panics, and the
    functions are called at most as often as HldEffSpec.v says: O(n) times to build the structure, O((log n)^2) times per path and
    O(log n) times per other call.  ([*c] is the function without its side effects, which may panic.) *)
Theorem C90_same_code : forall {W S F : Type} (R : relation W) (e : S) (idm : F) (opc : S -> S -> res S) (mappingc : F -> S -> res S) (compc : F -> F -> res F) opE mappingE compE,
  (forall a, acts_res R (opc a) (opE a)) -> (forall f, acts_res R (mappingc f) (mappingE f)) -> (forall f, acts_res R (compc f) (compE f)) ->
  forall g root, is_tree g -> forall ops : list (hle_op W S F), Forall (hpred_ok R) ops ->
  same_within R (2 * length g + sum_list_with (hld_calls (length g)) (hplain <$> ops))
    (x <* hlde_new e opE idm g root ;* erun (hlde_step e opE idm mappingE compE) x ops)
    (x ← hldc_new e opc idm g root; run (hldc_step e opc idm mappingc compc) x (hplain <$> ops)) /\
  forall v, same_within R (4 * length g + sum_list_with (hld_calls (length g)) (hplain <$> ops))
    (x <* hlde_with_init e opE idm g root v ;* erun (hlde_step e opE idm mappingE compE) x ops)
    (x ← hldc_with_init e opc idm g root v; run (hldc_step e opc idm mappingc compc) x (hplain <$> ops)).
Proof.
  intros W S F R e idm opc mappingc compc opE mappingE compE A AM AC g root T ops P.
  pose proof (fun a => acts_res_spends R _ _ (A a)) as A'. pose proof (fun a => acts_res_spends R _ _ (AM a)) as AM'. pose proof (fun a => acts_res_spends R _ _ (AC a)) as AC'.
  split; [|intros v]; apply spends_same; [apply hnew_history|apply hinit_history]; assumption.
Qed.
Print Assumptions C90_same_code.

(** C90: HLD on a tree over lawful functions and predicates that act on a state: the answers are those of one value per vertex, within
    the same numbers of calls. *)
Theorem C90_hld : forall {W S F : Type} (R : relation W) (e : S) (op : S -> S -> S) (idm : F) (mapping : F -> S -> S) (comp : F -> F -> F) opE mappingE compE,
  monoid_laws e op -> map_laws op idm mapping comp ->
  (forall a, acts R (op a) (opE a)) -> (forall f, acts R (mapping f) (mappingE f)) -> (forall f, acts R (comp f) (compE f)) ->
  forall g root, is_tree g -> root < length g -> (Z.of_nat (length g) < 2 ^ 32)%Z ->
  exists ord, visiting_order g root ord /\
  forall ops : list (hle_op W S F), Forall (hpred_ok R) ops ->
  answers_within R (2 * length g + sum_list_with (hld_calls (length g)) (hplain <$> ops))
    (x <* hlde_new e opE idm g root ;* erun (hlde_step e opE idm mappingE compE) x ops)
    (hld_allowed_run e op mapping g root ord (by_pieces g root ord) (replicate (length g) e) (hplain <$> ops)) /\
  forall v, length v = length g ->
  answers_within R (4 * length g + sum_list_with (hld_calls (length g)) (hplain <$> ops))
    (x <* hlde_with_init e opE idm g root v ;* erun (hlde_step e opE idm mappingE compE) x ops)
    (hld_allowed_run e op mapping g root ord (by_pieces g root ord) v (hplain <$> ops)).
Proof.
  intros W S F R e op idm mapping comp opE mappingE compE L ML A AM AC g root T Hr Hn.
  assert (hld_built e op idm g root (replicate (length g) e) (hld_new e op idm g root)) as B0.
  { split; [exact T|]. split; [exact Hr|]. split; [exact Hn|]. right. auto. }
  destruct (C30_history e op idm mapping comp L ML g root _ _ B0) as (y & ord & E & V & P & H). exists ord. split; [exact V|]. intros ops HP. split.
  - pose proof (C90_same_code R e idm (fun a b => Ok (op a b)) (fun f x => Ok (mapping f x)) (fun f g => Ok (comp f g)) opE mappingE compE A AM AC g root T ops HP) as [HS _].
    change (hldc_new e (fun a b => Ok (op a b)) idm g root) with (hld_new e op idm g root) in HS. rewrite E in HS. cbn [mbind res_bind] in HS. specialize (H (hplain <$> ops)).
    eapply same_answers; [exact HS|exact H|].
    intros D. change (hldc_step e (fun a b => Ok (op a b)) idm (fun f x => Ok (mapping f x)) (fun f g => Ok (comp f g))) with (hld_step e op idm mapping comp) in D. rewrite D in H. inversion H.
  - intros v Hv. assert (hld_built e op idm g root v (hld_with_init e op idm g root v)) as B1.
    { split; [exact T|]. split; [exact Hr|]. split; [exact Hn|]. left. auto. }
    destruct (C30_history e op idm mapping comp L ML g root _ _ B1) as (y1 & ord1 & E1 & V1 & P1 & H1).
    assert (ord1 = ord) as ->.
    { assert (h_pos (hd_tree y1) = h_pos (hd_tree y)) as Ep.
      { unfold hld_with_init in E1. rewrite Hv, Nat.eqb_refl in E1. cbn [rassert mbind res_bind] in E1. rewrite E in E1. cbn [mbind res_bind] in E1.
        apply rbind_ok_inv in E1 as (a & _ & E1). apply rbind_ok_inv in E1 as (t & _ & E1). injection E1 as <-. reflexivity. }
      rewrite Ep in P1. destruct P as [_ P], P1 as [_ P1]. apply list_eq. intros i. apply option_eq. intros z. rewrite <- P, <- P1. reflexivity. }
    pose proof (C90_same_code R e idm (fun a b => Ok (op a b)) (fun f x => Ok (mapping f x)) (fun f g => Ok (comp f g)) opE mappingE compE A AM AC g root T ops HP) as [_ HS]. specialize (HS v).
    change (hldc_with_init e (fun a b => Ok (op a b)) idm g root v) with (hld_with_init e op idm g root v) in HS. rewrite E1 in HS. cbn [mbind res_bind] in HS. specialize (H1 (hplain <$> ops)).
    eapply same_answers; [exact HS|exact H1|].
    intros D. change (hldc_step e (fun a b => Ok (op a b)) idm (fun f x => Ok (mapping f x)) (fun f g => Ok (comp f g))) with (hld_step e op idm mapping comp) in D. rewrite D in H1. inversion H1.
Qed.
Print Assumptions C90_hld.

(** Sums with additions on the tree of C30_nonvacuous, every function counting its calls; 8-bit sums that panic on overflow. *)
Definition tick {A} (a : A) : eff nat A := fun k => Ok (a, k + 1).
Example C90_nonvacuous :
  let g := ex_tree in let v := [(10, 1); (11, 1); (12, 1); (13, 1); (14, 1); (15, 1); (16, 1)]%Z in
  is_tree g /\
  (forall a, acts (fun k k' => k' = k + 1) (su_op a) (fun b => tick (su_op a b))) /\
  (let ops := [HeApplyPath 5 1 2%Z; HePathProd 6 1; HeApplySubtree 4 100%Z; HeSubtreeProd 4; HeSet 3 (1, 1)%Z; HeGet 0] in
   exists x, (x <* hlde_with_init (0, 0)%Z (fun a b => tick (su_op a b)) 0%Z g 3 v ;*
      erun (hlde_step (0, 0)%Z (fun a b => tick (su_op a b)) 0%Z (fun f x => tick (su_map f x)) (fun f g => tick (f + g)%Z)) x ops) 0
     = Ok (x, [HUnit; HVal (71, 5)%Z; HUnit; HVal (349, 3)%Z; HUnit; HVal (12, 1)%Z], 198) /\
   4 * 7 + sum_list_with (hld_calls 7) (hplain <$> ops) = 534) /\
  (let step := hldc_step (0, 0)%Z (su_opc u8) 0%Z (su_mapc u8) (iadd u8) in
   fmap snd (x ← hldc_with_init (0, 0)%Z (su_opc u8) 0%Z g 3 v; run step x [HApplyPath 5 1 2%Z; HPathProd 6 1]) = Ok [HUnit; HVal (71, 5)%Z] /\
   fmap snd (x ← hldc_with_init (0, 0)%Z (su_opc u8) 0%Z g 3 v; run step x [HApplyPath 5 1 2%Z; HApplySubtree 4 100%Z; HPathProd 6 1]) = Panic).
Proof.
  split; [apply ex_tree_ok|]. split; [intros a b w; eexists; split; [reflexivity|lia]|]. split; [|vm_compute; split; reflexivity].
  eexists. split; [vm_compute; reflexivity|vm_compute; reflexivity].
Qed.
