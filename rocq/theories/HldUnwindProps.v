(** C102: HLD after caught panics. *)
From Verif Require Import Prelude IntModel UtilModel ArraySpec PartialOps LazySpec LazyModel LazyProof LazyTop LazyProps LazyChkModel LazyChkProof TreeSpec TreeProof
  HldSpec HldModel HldTree HldProof HldOps HldProps HldChkModel HldChkProof
  Unwind LazyUnwindModel TreeUnwindSpec LazyUnwindSpec LazyUnwindCode LazyUnwindGhost LazyUnwindProof LazyUnwindTop LazyUnwindOps LazyUnwindProps
  HldUnwindModel HldUnwindSpec HldUnwindCode HldUnwindProof.

(** C102: the model with the memory left behind is the checked model: nobody catching, they are the same. *)
Theorem C102_same_code : forall {S F : Type} (e : S) (opc : S -> S -> res S) (idm : F) (mapc : F -> S -> res S) (compc : F -> F -> res F) o x,
  strip (hldu_step e opc idm mapc compc o x) = hldc_step e opc idm mapc compc x o.
Proof. intros. apply hld_strip. Qed.
Print Assumptions C102_same_code.

(** An HLD built over an operation that may panic. *)
Definition hldc_built {S F} (e : S) (opc : S -> S -> res S) (idm : F) (g : list (list nat)) (root : nat) (w : list S) (x : hld S F) : Prop :=
  is_tree g /\ root < length g /\ (Z.of_nat (length g) < 2 ^ 32)%Z /\
  (length w = length g /\ hldc_with_init e opc idm g root w = Ok x \/ w = replicate (length g) e /\ hldc_new e opc idm g root = Ok x).
Lemma hldc_built_total {S F} (e : S) op opc (idm : F) g root w x : or_panics op opc -> hldc_built e opc idm g root w x -> hld_built e op idm g root w (Ok x).
Proof.
  intros O (T & Hr & Hn & H). split; [exact T|]. split; [exact Hr|]. split; [exact Hn|]. destruct H as [[Hw E]|[Hw E]]; [left|right]; (split; [exact Hw|]).
  - destruct (le_hld_with_init e op idm opc O g root w) as [H|H]; congruence.
  - destruct (le_hld_new e op idm opc O g root) as [H|H]; congruence.
Qed.

(** C102: whatever calls unwind because op panics, every answer of an HLD is explained by the vertices' candidates: a completed update acts
    on all candidates of the vertices it names; an apply_path that unwound has handled the first pieces of the path, left one
    descending piece in doubt and not touched the rest; nothing else is in doubt. *)
Theorem C102_history : forall {S F : Type} (e : S) (op : S -> S -> S) (idm : F) (mapping : F -> S -> S) (comp : F -> F -> F),
  monoid_laws e op -> map_laws op idm mapping comp -> forall (opc : S -> S -> res S), or_panics op opc ->
  forall g root w x, hldc_built e opc idm g root w x ->
  exists ord, visiting_order g root ord /\ places ord (h_pos (hd_tree x)) /\
    forall ops, exists x' outs cells, urun (hldu_step e opc idm (fun f x => Ok (mapping f x)) (fun f g => Ok (comp f g))) x ops = Ok (x', outs) /\
      cells_run (hld_cells_step e op mapping g root ord) (map (fun y => [y]) w) ops outs cells.
Proof.
  intros S F e op idm mapping comp L ML opc O g root w x B. pose proof (hldc_built_total e op opc idm g root w x O B) as B'. pose proof B as (T & Hr & Hn & _).
  destruct (hld_built_ok e op idm mapping comp g root w (Ok x) L ML B') as (y & ord & E & Bd). injection E as <-.
  exists ord. assert (visiting_order g root ord /\ places ord (h_pos (hd_tree x))) as [V P] by (eapply built_ord; eauto). split; [exact V|]. split; [exact P|].
  intros ops. destruct Bd as (par & dep & hv & pos & posr & h & R & D & Hord & Hi).
  destruct (hld_run_cells e op idm mapping comp L ML opc O g root par dep R h hv pos posr D ord Hord ops x _ (HC_start e op idm mapping g root par dep h hv pos posr D x w Hi))
    as (x' & outs & cells & H1 & H2 & _). eauto.
Qed.
Print Assumptions C102_history.

(** C102: where one candidate is left, the answers are exact: path_prod and subtree_prod are products of the values w. *)
Theorem C102_settled : forall {S F : Type} (e : S) (op : S -> S -> S) (mapping : F -> S -> S) g root ord (cells : list (list S)) (w : list S),
  length w = length cells ->
  (forall u v x, hld_cells_step e op mapping g root ord cells (HPathProd u v) (Some (HVal x)) cells ->
     (forall l z y, is_path g u v l -> z ∈ l -> w !! z = Some y -> cells !! z = Some [y]) ->
     exists l l', is_path g u v l /\ by_pieces g root ord l' l /\ x = mprod e op (vals e w l')) /\
  (forall u x, hld_cells_step e op mapping g root ord cells (HSubtreeProd u) (Some (HVal x)) cells ->
     (forall z y, ancestor g root u z -> w !! z = Some y -> cells !! z = Some [y]) ->
     exists l, sublist l ord /\ (forall z, z ∈ l <-> z < length g /\ ancestor g root u z) /\ x = mprod e op (vals e w l)) /\
  (forall u x y, hld_cells_step e op mapping g root ord cells (HGet u) (Some (HVal x)) cells -> w !! u = Some y -> cells !! u = Some [y] -> x = y).
Proof.
  intros S F e op mapping g root ord cells w Hw.
  assert (forall l x, (forall z y, z ∈ l -> w !! z = Some y -> cells !! z = Some [y]) -> some_prod e op (vals [] cells l) x -> x = mprod e op (vals e w l)) as K.
  { intros l x Hs (ys & Hc & ->). f_equal. unfold choice, vals in *. clear -Hs Hc Hw. revert ys Hc. induction l as [|z l IH]; intros ys Hc; cbn in Hc |- *; inversion Hc as [|? ? ? ? H1 H2]; subst; [reflexivity|].
    f_equal; [|apply IH; [|assumption]; intros z' y' Hz'; apply Hs; right; exact Hz'].
    destruct (cells !! z) as [c|] eqn:Ec; cbn in H1; [|inversion H1]. destruct (lookup_lt_is_Some_2 w z) as [y0 Hy0]; [rewrite Hw; apply lookup_lt_Some in Ec; exact Ec|].
    rewrite (Hs z y0 ltac:(left) Hy0) in Ec. injection Ec as <-. rewrite Hy0. cbn. apply elem_of_list_singleton in H1. exact H1. }
  split; [|split].
  - intros u v x (_ & Hu & Hv & l & l' & HP & Hb & Hx) Hs. exists l, l'. split; [exact HP|]. split; [exact Hb|]. apply K; [|exact Hx]. intros z y Hz. apply (Hs l z y HP). destruct Hb as [Hb _]. rewrite <- Hb. exact Hz.
  - intros u x (_ & Hu & l & Hl & He & Hx) Hs. exists l. split; [exact Hl|]. split; [exact He|]. apply K; [|exact Hx]. intros z y Hz. apply Hs. apply He. exact Hz.
  - intros u x y (_ & c & Hc) Hy Hcell. congruence.
Qed.
Print Assumptions C102_settled.

Lemma lz_refused_same {S F} (e : S) op (idm : F) mapping comp t a o : LInv e op idm mapping t a -> lz_allowed e op mapping a o Panic ->
  ltu_step e (fun x y => Ok (op x y)) idm (fun f x => Ok (mapping f x)) (fun f g => Ok (comp f g)) o t = Ok (t, None).
Proof.
  intros I H. pose proof (li_n _ _ _ _ _ _ I) as Hn. destruct o as [p x|p|l r| |p f|l r f|l g|r g]; cbn [lz_allowed lz_spec_step] in H; cbn [ltu_step].
  - apply ubind_unwound. rewrite <- (with_same t) at 2. apply on_tree_ok. apply ubind_unwound, uread_panic, assert_false.
    rewrite Hn. destruct (p <? length a); [discriminate|reflexivity].
  - apply ubind_unwound. rewrite <- (with_same t) at 2. apply on_tree_ok. apply ubind_unwound, uread_panic, assert_false. rewrite Hn.
    destruct (Nat.ltb_spec p (length a)) as [Hp|]; [|reflexivity]. exfalso. unfold vget in H. apply lookup_lt_is_Some_2 in Hp as [y Hy]. rewrite Hy in H. discriminate.
  - apply ubind_unwound. rewrite <- (with_same t) at 2. apply on_tree_ok. apply ubind_unwound, uread_panic, assert_false.
    rewrite Hn. destruct ((l <=? r) && (r <=? length a)); [discriminate|reflexivity].
  - discriminate.
  - apply ubind_unwound. rewrite <- (with_same t) at 2. apply on_tree_ok. apply ubind_unwound, uread_panic, assert_false. rewrite Hn.
    destruct (Nat.ltb_spec p (length a)) as [Hp|]; [|reflexivity]. exfalso. unfold vget in H. apply lookup_lt_is_Some_2 in Hp as [y Hy]. rewrite ?Hy in H. discriminate.
  - apply ubind_unwound. rewrite <- (with_same t) at 2. apply on_tree_ok. apply ubind_unwound, uread_panic, assert_false.
    rewrite Hn. destruct ((l <=? r) && (r <=? length a)); [discriminate|reflexivity].
  - apply ubind_unwound. rewrite <- (with_same t) at 2. apply on_tree_ok. rewrite <- Hn in H. destruct (l <=? lt_n t) eqn:Hl; cbn [andb] in H.
    + rewrite (ubind_ok _ _ _ (lt_d t, lt_lz t) tt) by (apply uread_ok; reflexivity). apply ubind_unwound, uread_panic, assert_false.
      destruct (g e); [|reflexivity]. destruct H as (? & H & _). discriminate.
    + apply ubind_unwound, uread_panic. reflexivity.
  - apply ubind_unwound. rewrite <- (with_same t) at 2. apply on_tree_ok. rewrite <- Hn in H. destruct (r <=? lt_n t) eqn:Hl; cbn [andb] in H.
    + rewrite (ubind_ok _ _ _ (lt_d t, lt_lz t) tt) by (apply uread_ok; reflexivity). apply ubind_unwound, uread_panic, assert_false.
      destruct (g e); [|reflexivity]. destruct H as (? & H & _). discriminate.
    + apply ubind_unwound, uread_panic. reflexivity.
Qed.

Lemma on_data_unwound {S F A B} (m : hl -> uw (lazytree S F) A) (k : A -> uw (hld S F) B) t h : m h t = Ok (t, None) -> ubind (on_data m) k (Hld t h) = Ok (Hld t h, None).
Proof. intros E. apply ubind_unwound. unfold on_data. cbn [hd_tree hd_data]. rewrite E. reflexivity. Qed.
Lemma uloop_unwound {X B R} (step : B -> uw X (B + R)) k b s : step b s = Ok (s, None) -> uloop (k + 1) step b s = Ok (s, None).
Proof. intros E. rewrite Nat.add_1_r. cbn [uloop]. apply ubind_unwound. exact E. Qed.

(** C102: over operations that never panic the only calls that unwind are those naming a vertex out of range (or refused by the field data),
    and they leave no trace: all answers are those of a tree with one value per vertex that refuses such calls. *)
Theorem C102_refused : forall {S F : Type} (e : S) (op : S -> S -> S) (idm : F) (mapping : F -> S -> S) (comp : F -> F -> F),
  monoid_laws e op -> map_laws op idm mapping comp -> forall g root w x, hld_built e op idm g root w x ->
  exists y ord, x = Ok y /\ visiting_order g root ord /\ places ord (h_pos (hd_tree y)) /\
    forall ops, exists y' outs, urun (hldu_step e (fun x y => Ok (op x y)) idm (fun f x => Ok (mapping f x)) (fun f g => Ok (comp f g))) y ops = Ok (y', outs) /\
      hld_refusing_run e op mapping g root ord w ops outs.
Proof.
  intros S F e op idm mapping comp L ML g root w x B. pose proof B as (T & Hr & Hn & _). destruct (hld_built_ok e op idm mapping comp g root w x L ML B) as (y & ord & -> & Bd).
  exists y, ord. split; [reflexivity|]. assert (visiting_order g root ord /\ places ord (h_pos (hd_tree y))) as [V P] by (eapply built_ord; eauto). split; [exact V|]. split; [exact P|].
  destruct Bd as (par & dep & hv & pos & posr & h & R & D & Hord & Hi). intros ops. clear B P. revert y w Hi.
  set (opc := fun x y => Ok (op x y)). set (mapc := fun f x => Ok (mapping f x)). set (compc := fun f g => Ok (comp f g)).
  assert (forall t o, hldc_step e opc idm mapc compc t o = hld_step e op idm mapping comp t o) as Hsame by (intros t []; reflexivity).
  induction ops as [|o ops IH]; intros y w Hi.
  - exists y, []. split; [reflexivity|constructor].
  - pose proof (step_ok e op idm mapping comp L ML g root par dep R h hv pos posr D ord Hord y w o Hi) as H. rewrite <- Hsame, <- (C102_same_code e opc idm mapc compc o y) in H. cbn [urun].
    destruct (strip (hldu_step e opc idm mapc compc o y)) as [[y1 out]| |] eqn:Es; [| |contradiction].
    + apply strip_Ok in Es. rewrite Es. cbn [mbind res_bind]. destruct H as (w1 & Hw1 & I1). destruct (IH y1 w1 I1) as (y2 & outs & Er & Hrun).
      rewrite Er. cbn [mbind res_bind]. exists y2, (Some out :: outs). split; [reflexivity|]. eapply hrr_ok; eassumption.
    + assert (hldu_step e opc idm mapc compc o y = Ok (y, None)) as ->.
      { destruct y as [t h']. destruct Hi as [Eh (a & I & Ha & ->)]. cbn [hd_tree hd_data] in *. subst h'.
        destruct o as [u v f|u v|u f|u|u|u z|o]; cbn [hld_allowed] in H; cbn [hldu_step]; apply on_data_unwound; try apply ubind_unwound.
        - apply uloop_unwound. apply ubind_unwound, uread_panic. apply (climb_panic g root par dep h hv pos posr D).
          destruct (Nat.ltb_spec u (length g)); [destruct (Nat.ltb_spec v (length g))|]; cbn [andb] in H; [destruct H as (? & ? & _ & _ & H); discriminate|lia|lia].
        - apply uloop_unwound. apply ubind_unwound, uread_panic. apply (climb_panic g root par dep h hv pos posr D).
          destruct (Nat.ltb_spec u (length g)); [destruct (Nat.ltb_spec v (length g))|]; cbn [andb] in H; [destruct H as (? & ? & _ & _ & H); discriminate|lia|lia].
        - apply uread_panic. apply (pos_panic g root par dep h hv pos posr D). destruct (Nat.ltb_spec u (length g)); [destruct H as (? & _ & H); discriminate|lia].
        - apply uread_panic. apply (pos_panic g root par dep h hv pos posr D). destruct (Nat.ltb_spec u (length g)); [destruct H as (? & _ & _ & H); discriminate|lia].
        - apply uread_panic. apply (pos_panic g root par dep h hv pos posr D). destruct (decide (u < length g)) as [Hu|Hu]; [|lia]. exfalso.
          destruct (lookup_lt_is_Some_2 (wof e g pos a) u) as [q Hq]; [rewrite wof_length; exact Hu|]. rewrite Hq in H. discriminate.
        - apply uread_panic. apply (pos_panic g root par dep h hv pos posr D). destruct (Nat.ltb_spec u (length g)); [discriminate|lia].
        - rewrite (vals_ord e g root par dep h hv pos posr D ord Hord) in H by exact Ha. apply (lz_refused_same e op idm mapping comp t a o I H). }
      cbn [mbind res_bind]. destruct (IH y w Hi) as (y2 & outs & Er & Hrun). rewrite Er. cbn [mbind res_bind].
      exists y2, (None :: outs). split; [reflexivity|]. eapply hrr_refused; eassumption.
Qed.
Print Assumptions C102_refused.

(** The tree 0 - 1 - 3 with a second child 2 of the root. *)
Definition fork : list (list nat) := [[1; 2]; [0; 3]; [0]; [1]].
(** C102: the three parts are needed.  apply_path(2, 1) flips vertex 2, then overflows after flipping 0 and 1: all three are flipped, path_prod sees it,
    but all_prod of the public field still counts 0 and 1 as they were, with 2 flipped; vertex 3 is not touched. *)
Theorem C102_mid_path : exists x x' : hld (Z * Z) bool, hldc_with_init (0, 0)%Z bits_opc false fork 0 [(200, 0); (0, 100); (10, 0); (0, 50)]%Z = Ok x /\
  urun (hldu_step (0, 0)%Z bits_opc false (fun f x => Ok (bits_flip f x)) (fun f g => Ok (xorb f g))) x
    [HApplyPath 2 1 true; HGet 2; HGet 0; HGet 1; HGet 3; HPathProd 2 1; HData LzAllProd; HSubtreeProd 0; HApplyPath 2 1 true; HSubtreeProd 0] =
  Ok (x', [None; Some (HVal (0, 10)); Some (HVal (0, 200)); Some (HVal (100, 0)); Some (HVal (0, 50)); Some (HVal (100, 210)); Some (HDataOut (LzVal (200, 160)));
           Some (HVal (200, 160)); Some HUnit; Some (HVal (210, 150))])%Z.
Proof. eexists _, _. split; [vm_compute; reflexivity|]. vm_compute. reflexivity. Qed.
Print Assumptions C102_mid_path.

Lemma fork_tree : is_tree fork.
Proof.
  apply (rtree_tree fork 0 (fun v => nth v [0; 0; 0; 1] 0) (fun v => nth v [0; 1; 1; 2] 0)). split; [cbn; lia|reflexivity|reflexivity| | |].
  - intros v Hv Hne. do 4 (destruct v as [|v]; [cbn; lia|]). cbn in Hv. lia.
  - intros u es Hes. do 4 (destruct u as [|u]; [injection Hes as <-; apply (bool_decide_unpack _); vm_compute; exact I|]). discriminate.
  - intros u es v Hes. do 4 (destruct u as [|u]; [injection Hes as <-; rewrite ?elem_of_cons, elem_of_nil; do 4 (destruct v as [|v]; [cbn; lia|]); cbn; lia|]).
    discriminate.
Qed.
(** Non-vacuity: the tree and the values of C102_mid_path meet the hypotheses of C102_history (counts of bits: C81_nonvacuous). *)
Example C102_nonvacuous : (monoid_laws (0, 0)%Z bits_op /\ map_laws bits_op false bits_flip xorb /\ or_panics bits_op bits_opc) /\
  (exists x, hldc_built (0, 0)%Z bits_opc false fork 0 [(200, 0); (0, 100); (10, 0); (0, 50)]%Z x) /\
  hld_built (0, 0)%Z bits_op false fork 0 [(200, 0); (0, 100); (10, 0); (0, 50)]%Z (hld_with_init (0, 0)%Z bits_op false fork 0 [(200, 0); (0, 100); (10, 0); (0, 50)]%Z).
Proof.
  split; [pose proof C81_nonvacuous as (H1 & H2 & H3 & _); auto|]. split.
  - eexists. split; [apply fork_tree|]. split; [cbn; lia|]. split; [cbn; lia|]. left. split; [reflexivity|]. vm_compute. reflexivity.
  - split; [apply fork_tree|]. split; [cbn; lia|]. split; [cbn; lia|]. left. split; reflexivity.
Qed.
