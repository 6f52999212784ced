(** Property C72: HLD when the graph has vertices outside the tree of the root. *)
From Verif Require Import Prelude UtilModel ArraySpec LazySpec LazyModel LazyTop LazyProps TreeSpec CompSpec HldSpec CompHldSpec HldModel CompTree CompHldTree CompHldProof CompHldOps CompProps.

Lemma reached_list g root : tree_at g root -> exists vs, NoDup vs /\ forall v, v ∈ vs <-> reached g root v.
Proof.
  intros T. assert (forall k, exists vs, NoDup vs /\ forall v, v ∈ vs <-> v < k /\ reached g root v) as H.
  { induction k as [|k (vs & N & Hv)]; [exists []; split; [constructor|]; intros v; rewrite elem_of_nil; lia|].
    destruct (reached_dec g root T k) as [Hk|Hk].
    - exists (k :: vs). split; [apply NoDup_cons; split; [rewrite Hv; lia|exact N]|]. intros v. rewrite elem_of_cons, Hv. split.
      + intros [->|[? ?]]; split; auto; lia.
      + intros [? ?]. destruct (decide (v = k)) as [->|]; [auto|]. right. split; [lia|auto].
    - exists vs. split; [exact N|]. intros v. rewrite Hv. split; [intros [? ?]; split; auto; lia|]. intros [? ?]. split; [|auto].
      destruct (decide (v = k)) as [->|]; [contradiction|lia]. }
  destruct (H (length g)) as (vs & N & Hv). exists vs. split; [exact N|]. intros v. rewrite Hv. split; [tauto|]. intros R. split; [eapply reached_lt; eauto|exact R].
Qed.

Lemma iso_ctree g (C : nat -> Prop) root par dep (vs : list nat) : ctree g C root par dep -> (forall v, v ∈ vs <-> C v) ->
  let par' := fun v => if decide (v ∈ vs) then par v else v in
  ctree g C root par' dep /\ forall v, ~ C v -> par' v = v.
Proof.
  intros [A1 A2 A3 A4 A5 A6 A7] Hvs par'.
  assert (forall v, C v -> par' v = par v) as E by (intros v Hv; unfold par'; rewrite decide_True by (apply Hvs; exact Hv); reflexivity).
  split.
  - split; auto.
    + rewrite E; auto.
    + intros v Hv Hne. rewrite E by exact Hv. auto.
    + intros u es v Hu Hes. rewrite (A7 u es v Hu Hes). rewrite (E u Hu). split.
      * intros [(C1 & C2 & C3)|H]; [left|right; exact H]. rewrite E by exact C1. auto.
      * intros [(C1 & C2 & C3)|H]; [left|right; exact H]. rewrite E in C3 by exact C1. auto.
  - intros v Hv. unfold par'. rewrite decide_False; [reflexivity|]. intros H. apply Hv, Hvs, H.
Qed.

Section build.
  Context {S F : Type} (e : S) (op : S -> S -> S) (idm : F) (mapping : F -> S -> S) (comp : F -> F -> F).
  Context (L : monoid_laws e op) (ML : map_laws op idm mapping comp).
  Context (g : list (list nat)) (root : nat) (T : tree_at g root) (Hn : (Z.of_nat (length g) < 2 ^ 32)%Z).
  Notation n := (length g).
  Notation C := (reached g root).

  (** All facts about a structure x whose vertices hold w. *)
  Record facts (par dep : nat -> nat) (vs : list nat) (h : hl) (hv : nat -> option nat) (pos posr : nat -> nat) (ord : list nat) : Prop := {
    f_tree : ctree g C root par dep;
    f_vs : forall v, v ∈ vs <-> C v;
    f_nodup : NoDup vs;
    f_iso : forall v, ~ C v -> par v = v;
    f_dec : decomp g C root par dep vs h hv pos posr;
    f_ord : forall k v, ord !! k = Some v <-> C v /\ pos v = k }.
  Definition built (x : hld S F) (w : list S) (ord : list nat) : Prop :=
    exists par dep vs h hv pos posr, facts par dep vs h hv pos posr ord /\ hinv e op idm mapping g h pos x w.

  Lemma ord_exists (vs : list nat) (pos : nat -> nat) : (forall i, i < length vs -> exists v, C v /\ pos v = i) -> (forall v, C v -> pos v < length vs) ->
    (forall v w, C v -> C w -> pos v = pos w -> v = w) -> exists ord : list nat, forall k v, ord !! k = Some v <-> C v /\ pos v = k.
  Proof.
    intros On Lt Inj. assert (forall m, m <= length vs -> exists ord : list nat, length ord = m /\ forall k v, ord !! k = Some v -> C v /\ pos v = k) as H.
    { induction m as [|m IH]; intros Hm; [exists []; split; [reflexivity|discriminate]|]. destruct IH as (ord & Hl & Ho); [lia|].
      destruct (On m) as (v & Hv & Hp); [lia|]. exists (ord ++ [v]). split; [rewrite app_length; cbn; lia|]. intros k u Hk.
      apply lookup_app_Some in Hk as [Hk|[Hk1 Hk2]]; [auto|]. destruct (k - length ord) eqn:E; [|discriminate]. injection Hk2 as <-. split; [exact Hv|lia]. }
    destruct (H (length vs) (le_n _)) as (ord & Hl & Ho). exists ord. intros k v. split; [apply Ho|]. intros [Hv <-].
    destruct (lookup_lt_is_Some_2 ord (pos v)) as [u Hu]; [rewrite Hl; auto|]. rewrite Hu. f_equal. destruct (Ho _ _ Hu) as [Hu1 Hu2]. apply Inj; auto.
  Qed.

  Lemma new_facts : exists par dep vs h hv pos posr ord t, hld_new e op idm g root = Ok (Hld t h) /\ facts par dep vs h hv pos posr ord /\ LInv e op idm mapping t (replicate n e).
  Proof.
    destruct (tree_ctree g root T) as (par0 & dep & R0). destruct (reached_list g root T) as (vs & Hvn & Hvs).
    destruct (iso_ctree g C root par0 dep vs R0 Hvs) as [R Iso]. set (par := fun v => _) in R, Iso.
    destruct (hl_new_ok g C root par dep R vs Hvs Hvn Iso) as (h & hv & pos & posr & E & D).
    destruct (ord_exists vs pos) as (ord & Hord); [apply (d_onto _ _ _ _ _ _ _ _ _ _ D)|intros v Hv; apply (d_lt _ _ _ _ _ _ _ _ _ _ D v Hv)|apply (d_inj _ _ _ _ _ _ _ _ _ _ D)|].
    pose proof (ta_root _ _ T) as Hr.
    unfold hld_new, lt_new. destruct (Nat.ltb_spec root n); [|lia]. cbn [rassert mbind res_bind].
    destruct (from_inv e op idm mapping comp L ML (replicate n e)) as (t & -> & I); [rewrite replicate_length; exact Hn|]. cbn [mbind res_bind].
    rewrite E. cbn [mbind res_bind]. exists par, dep, vs, h, hv, pos, posr, ord, t. split; [reflexivity|]. split; [split; assumption|exact I].
  Qed.
  Lemma new_built : exists x ord, hld_new e op idm g root = Ok x /\ built x (replicate n e) ord.
  Proof.
    destruct new_facts as (par & dep & vs & h & hv & pos & posr & ord & t & E & Fa & I). exists (Hld t h), ord. split; [exact E|].
    exists par, dep, vs, h, hv, pos, posr. split; [exact Fa|]. destruct Fa as [R Hvs Hvn Iso D Hord].
    split; [reflexivity|]. exists (replicate n e). split; [exact I|]. split; [apply replicate_length|].
    apply list_eq. intros v. destruct (decide (v < n)) as [Hv|Hv].
    - rewrite (wof_lookup e g root T par dep R vs Hvs Hvn h hv pos posr D) by (auto; apply replicate_length).
      rewrite !lookup_replicate_2; auto. eapply pos_lt; eauto.
    - rewrite !lookup_ge_None_2; [reflexivity|rewrite wof_length; lia|rewrite replicate_length; lia].
  Qed.

  Lemma last_rootlike : exists k, k < n /\ rootlike g root k /\ forall v, v < n -> rootlike g root v -> v <= k.
  Proof.
    pose proof (ta_root _ _ T) as Hr.
    assert (forall m, root < m -> exists k, k < m /\ rootlike g root k /\ forall v, v < m -> rootlike g root v -> v <= k) as H.
    { induction m as [|m IH]; intros Hm; [lia|]. destruct (decide (root = m)) as [<-|Hne].
      - exists root. split; [lia|]. split; [left; reflexivity|]. intros. lia.
      - destruct IH as (k & K1 & K2 & K3); [lia|]. destruct (reached_dec g root T m) as [R|R].
        + exists k. split; [lia|]. split; [exact K2|]. intros v Hv [->|Hv']; [apply K3; [lia|left; reflexivity]|].
          apply K3; [|right; exact Hv']. destruct (decide (v = m)) as [->|]; [contradiction|lia].
        + exists m. split; [lia|]. split; [right; exact R|]. intros. lia. }
    apply H. exact Hr.
  Qed.

  Lemma with_init_built w1 : length w1 = n -> exists x w ord, hld_with_init e op idm g root w1 = Ok x /\ init_values g root w1 w /\ built x w ord.
  Proof.
    intros Hw. destruct new_facts as (par & dep & vs & h & hv & pos & posr & ord & t0 & E & Fa & _). pose proof Fa as [R Hvs Hvn Iso D Hord].
    unfold hld_with_init. rewrite Hw, Nat.eqb_refl. cbn [rassert mbind res_bind]. rewrite E. cbn [mbind res_bind hd_tree]. unfold range.
    assert (forall v, v < n -> pos v < n) as Plt by (intros v Hv; eapply pos_lt; eauto).
    destruct (rfor_range_inv (fun i a => length a = n /\ forall j, j < i -> (forall j', j < j' < i -> pos j' <> pos j) -> a !! pos j = w1 !! j) 0 n
      (fun i a => p ← vget (h_pos h) i; x ← vget w1 i; vset a p x) w1) as (a & -> & Ha & Hv).
    - lia.
    - split; [exact Hw|]. intros j Hj. lia.
    - intros i a Hi [Ha Hv]. rewrite (vget_ok (h_pos h) i (pos i)) by (eapply pos_get; eauto; lia). cbn [mbind res_bind].
      destruct (vget_lt w1 i) as (y & -> & Hy); [lia|]. cbn [mbind res_bind]. assert (pos i < n) as Hp by (apply Plt; lia).
      rewrite vset_ok by lia. eexists. split; [reflexivity|]. split; [rewrite insert_length; exact Ha|].
      intros j Hj Hlast. destruct (decide (j = i)) as [->|Hne]; [rewrite list_lookup_insert by lia; congruence|].
      rewrite list_lookup_insert_ne; [apply Hv; [lia|]|apply Hlast; lia]. intros j' Hj'. apply Hlast. lia.
    - cbn [mbind res_bind]. destruct (from_inv e op idm mapping comp L ML a) as (t & -> & I); [rewrite Ha; exact Hn|]. cbn [mbind res_bind].
      set (w := wof e g pos a). assert (forall v, v < n -> w !! v = a !! pos v) as HwL.
      { intros v Hvn'. unfold w. eapply (wof_lookup e g root T par dep R vs Hvs Hvn h hv pos posr D); auto. }
      exists (Hld t h), w, ord. split; [reflexivity|]. split.
      + split; [unfold w; rewrite wof_length; auto|]. split.
        * intros v Rv Hne. assert (v < n) as Hvn' by (eapply reached_lt; eauto). rewrite HwL by exact Hvn'. apply Hv; [lia|].
          intros j' Hj' Ep. apply (shares_pos g root T par dep R vs Hvs Hvn h hv pos posr D j' v) in Ep; [|lia|exact Hvn'].
          destruct Ep as [->|[_ [->|Q]]]; [lia|congruence|contradiction].
        * destruct last_rootlike as (k & K1 & K2 & K3). exists k. split; [exact K1|]. split; [exact K2|]. split; [exact K3|].
          intros v Hvn' Rv. rewrite HwL by exact Hvn'.
          assert (pos v = pos k) as ->. { eapply shares_pos; eauto. right. auto. }
          apply Hv; [lia|]. intros j' Hj' Ep. assert (j' <= k); [|lia]. apply K3; [lia|].
          apply (rootlike_pos g root T par dep R vs Hvs Hvn h hv pos posr D); [lia|]. rewrite Ep. eapply (rootlike_pos g root T par dep R vs Hvs Hvn h hv pos posr D); auto.
      + exists par, dep, vs, h, hv, pos, posr. split; [exact Fa|]. split; [reflexivity|]. exists a. auto.
  Qed.
End build.

(** The setting: the reached vertices form a tree, x is built by new (every value is the identity) or by with_init_value. *)
Definition comp_built {S F} (e : S) (op : S -> S -> S) (idm : F) (g : list (list nat)) (root : nat) (w : list S) (x : res (hld S F)) : Prop :=
  tree_at g root /\ (Z.of_nat (length g) < 2 ^ 32)%Z /\
  (x = hld_new e op idm g root /\ w = replicate (length g) e \/
   exists w1, length w1 = length g /\ x = hld_with_init e op idm g root w1 /\ init_values g root w1 w).

Lemma init_values_eq {S} g root (w1 w w' : list S) : length w1 = length g -> init_values g root w1 w -> init_values g root w1 w' -> tree_at g root -> w = w'.
Proof.
  intros Hl (L1 & A1 & k & K1 & K2 & K3 & K4) (L2 & A2 & k' & K1' & K2' & K3' & K4') T. apply list_eq. intros v.
  destruct (decide (v < length g)) as [Hv|Hv]; [|rewrite !lookup_ge_None_2 by lia; reflexivity].
  assert (k = k') as <- by (apply Nat.le_antisymm; auto).
  destruct (reached_dec g root T v) as [R|R]; [destruct (decide (v = root)) as [E|E]|].
  - rewrite K4, K4' by (auto; left; exact E). reflexivity.
  - rewrite A1, A2 by assumption. reflexivity.
  - rewrite K4, K4' by (auto; right; exact R). reflexivity.
Qed.

Lemma comp_built_ok {S F} (e : S) op (idm : F) mapping comp g root w x : monoid_laws e op -> map_laws op idm mapping comp ->
  comp_built e op idm g root w x -> exists y ord, x = Ok y /\ built e op idm mapping g root y w ord.
Proof.
  intros L ML (T & Hn & [[-> ->]|(w1 & Hw & -> & Hi)]).
  - destruct (new_built e op idm mapping comp L ML g root T Hn) as (y & ord & E & B). eauto.
  - destruct (with_init_built e op idm mapping comp L ML g root T Hn w1 Hw) as (y & w' & ord & E & Hi' & B).
    rewrite (init_values_eq g root w1 w w' Hw Hi Hi' T). eauto.
Qed.

(** C72: there is a visiting order of the reached vertices, given by the field pos, such that every history of the calls of
    CompHldSpec.usable returns and does what comp_step says on one value per vertex, where every vertex that is not reached is another
    name of the root for get and set, and of nothing for the subtree calls; after every such history a call with a vertex out of range panics, and
    when vertex 0 is not reached, a path call between a reached vertex and one that is not never returns. *)
Theorem C72_history : forall {S F : Type} (e : S) (op : S -> S -> S) (idm : F) (mapping : F -> S -> S) (comp : F -> F -> F),
  monoid_laws e op -> map_laws op idm mapping comp ->
  forall g root w x, comp_built e op idm g root w x ->
  exists y ord, x = Ok y /\ comp_order g root ord /\ (forall k v, ord !! k = Some v -> h_pos (hd_tree y) !! v = Some k) /\
    forall ops, Forall (usable g root) ops -> exists y' w' outs,
      run (hld_step e op idm mapping comp) y ops = Ok (y', outs) /\ comp_run e op mapping g root ord (by_pieces g root ord) w ops w' outs /\
      (forall o, out_of_range g o -> hld_step e op idm mapping comp y' o = Panic) /\
      (~ reached g root 0 -> forall u v f fuel, u < length g -> v < length g -> ~ (reached g root u <-> reached g root v) ->
        path_prod_fuel e op idm mapping comp fuel y' u v = Diverge /\ apply_path_fuel op idm mapping comp fuel y' u v f = Diverge).
Proof.
  intros S F e op idm mapping comp L ML g root w x H. destruct (comp_built_ok e op idm mapping comp g root w x L ML H) as (y & ord & -> & B).
  destruct H as (T & Hn & _). destruct B as (par & dep & vs & h & hv & pos & posr & [R Hvs Hvn Iso D Hord] & I). exists y, ord. split; [reflexivity|].
  split; [exact (ord_ok g root par dep R vs h hv pos posr D ord Hord)|]. split.
  { intros k v Hk. apply Hord in Hk as [Hv <-]. destruct I as [-> _]. apply (pos_get g root T par dep vs h hv pos posr D). eapply reached_lt; eauto. }
  intros ops Hops. destruct (run_ok e op idm mapping comp L ML g root T par dep R vs Hvs Hvn h hv pos posr D ord Hord ops y w I Hops) as (y' & w' & outs & E1 & E2 & I').
  exists y', w', outs. split; [exact E1|]. split; [exact E2|]. split.
  - intros o Ho. eapply step_panic; eauto.
  - intros H0 u v f fuel Hu Hv Hne. destruct y' as [t h']. destruct I' as [Eh (a & I' & Ha & _)]. cbn [hd_tree hd_data] in *. subst h'.
    assert (one g root u v) as Hone.
    { split; [exact Hu|]. split; [exact Hv|]. destruct (reached_dec g root T u), (reached_dec g root T v); tauto. }
    split; [eapply path_prod_never|eapply apply_path_never]; eauto.
Qed.
Print Assumptions C72_history.

(** A tree on the vertices 1, 2, 3, 4 of a graph of 5 vertices (the usual 1-based input), lists of numbers under concatenation: two histories, and a
    path call that would not return. *)
Definition ob_hld := hld_with_init (F := nat * nat) [] app (1, 0) one_based 1 [[10]; [11]; [12]; [13]; [14]].
Definition ob_step := hld_step [] (@app nat) (1, 0) aff_map aff_comp.
Example C72_nonvacuous : comp_built [] (@app nat) (1, 0) one_based 1 [[11]; [11]; [12]; [13]; [14]] ob_hld /\
  Forall (usable (S := list nat) (F := nat * nat) one_based 1) [HPathProd 3 4; HSet 0 [7]; HGet 1; HApplyPath 0 0 (2, 1); HSubtreeProd 1; HSubtreeProd 0] /\
  (fmap snd (x ← ob_hld; run ob_step x [HPathProd 3 4; HSet 0 [7]; HGet 1; HApplyPath 0 0 (2, 1); HSubtreeProd 1; HSubtreeProd 0])) =
    Ok [HVal [14; 12; 13]; HUnit; HVal [7]; HUnit; HVal [15; 12; 13; 14]; HVal []] /\
  ~ reached one_based 1 0 /\ ~ (reached one_based 1 0 <-> reached one_based 1 4).
Proof.
  destruct C71_nonvacuous as (T & H0 & H4 & _). assert (forall v, reached one_based 1 v -> v <> 0) as Hne by (intros v R ->; contradiction).
  assert (forall v, 1 <= v < 5 -> reached one_based 1 v) as HR.
  { intros v Hv. destruct H4 as [l4 Hl4]. destruct v as [|[|[|[|[|v]]]]]; try lia.
    - exists [1]. constructor.
    - exists [1; 2]. econstructor; [exists [2]; split; [reflexivity|left]|]. constructor.
    - exists [1; 2; 3]. econstructor; [exists [2]; split; [reflexivity|left]|]. econstructor; [exists [1; 3; 4]; split; [reflexivity|right; left]|]. constructor.
    - exists l4. exact Hl4. }
  split; [split; [exact T|]; split; [cbn; lia|]; right; exists [[10]; [11]; [12]; [13]; [14]]|].
  { split; [reflexivity|]. split; [reflexivity|]. split; [reflexivity|]. split.
    - intros v R N. pose proof (Hne v R). destruct v as [|[|v]]; [contradiction|contradiction|reflexivity].
    - exists 1. split; [cbn; lia|]. split; [left; reflexivity|]. split.
      + intros v Hv [->|N]; [lia|]. destruct (decide (v = 0)); [lia|]. exfalso. apply N, HR. cbn in Hv. lia.
      + intros v Hv [->|N]; [reflexivity|]. destruct (decide (v = 0)) as [->|]; [reflexivity|]. exfalso. apply N, HR. cbn in Hv. lia. }
  split.
  { assert (reached one_based 1 3) as H3 by (apply HR; lia). apply List.Forall_forall. intros o Ho. cbn [In] in Ho. repeat destruct Ho as [<-|Ho]; [cbn [usable one_based length]; repeat split; intros; solve [lia|tauto]..|contradiction]. }
  split; [vm_compute; reflexivity|]. split; [exact H0|]. intros [_ H]. exact (H0 (H H4)).
Qed.

(** with_init_value loses the value of the root when a vertex with a larger index is not reached: the value 10 given for the root 0 of the
    tree 0 - 1 is replaced by the value 12 of vertex 2, and the product of the tree is wrong. *)
Example init_value_lost : (fmap snd (x ← hld_with_init (F := nat * nat) [] (@app nat) (1, 0) [[1]; [0]; []] 0 [[10]; [11]; [12]]; run ob_step x [HGet 0; HSubtreeProd 0; HPathProd 0 1])) =
  Ok [HVal [12]; HVal [12; 11]; HVal [12; 11]].
Proof. vm_compute. reflexivity. Qed.
(** The case that C72_history leaves open, vertex 0 in the tree but not its root and one end of the path not reached: on the tree 1 - 2 - 0
    rooted at 1 the call path_prod(3, 1) panics. *)
Example outside_path_panics : (x ← hld_new (F := nat * nat) [] (@app nat) (1, 0) [[2]; [2]; [1; 0]; []] 1; ob_step x (HPathProd 3 1)) = Panic.
Proof. vm_compute. reflexivity. Qed.
