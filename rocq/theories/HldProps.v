(** Heavy-light decomposition: main theorems. *)
From Verif Require Import Prelude UtilModel ArraySpec LazySpec LazyModel LazyTop LazyProps TreeSpec TreeProof LiftProps HldSpec HldModel HldTree HldProof HldOps.

(** pos is the place of every vertex in the order ord. *)
Definition places (ord : list nat) (pos : list nat) : Prop :=
  length pos = length ord /\ forall v p, pos !! v = Some p <-> ord !! p = Some v.

Section build.
  Context {S F : Type} (e : S) (op : S -> S -> S) (idm : F) (mapping : F -> S -> S) (comp : F -> F -> F).
  Context (L : monoid_laws e op) (ML : map_laws op idm mapping comp).
  Context (g : list (list nat)) (root : nat) (T : is_tree g) (Hr : root < length g) (Hn : (Z.of_nat (length g) < 2 ^ 32)%Z).
  Notation n := (length g).

  (** All facts about a structure x whose vertices hold w. *)
  Definition built (x : hld S F) (w : list S) (ord : list nat) : Prop :=
    exists par dep hv pos posr (h : hl), rtree g root par dep /\ decomp g root par dep h hv pos posr /\
      (forall k v, ord !! k = Some v <-> v < n /\ pos v = k) /\ hinv e op idm mapping g h pos x w.

  Lemma ord_exists (pos : nat -> nat) : (forall i, i < n -> exists v, v < n /\ pos v = i) -> (forall v, v < n -> pos v < n) ->
    (forall v w, v < n -> w < n -> pos v = pos w -> v = w) -> exists ord : list nat, forall k v, ord !! k = Some v <-> v < n /\ pos v = k.
  Proof.
    intros On Lt Inj. assert (forall m, m <= n -> exists ord : list nat, length ord = m /\ forall k v, ord !! k = Some v -> v < n /\ pos v = k) as H.
    { induction m as [|m IH]; intros Hm; [exists []; split; [reflexivity|discriminate]|]. destruct IH as (ord & Hl & Ho); [lia|].
      destruct (On m) as (v & Hv & Hp); [lia|]. exists (ord ++ [v]). split; [rewrite app_length; cbn; lia|]. intros k u Hk.
      apply lookup_app_Some in Hk as [Hk|[Hk1 Hk2]]; [auto|]. destruct (k - length ord) eqn:E; [|discriminate]. injection Hk2 as <-. split; [exact Hv|lia]. }
    destruct (H n (le_n n)) as (ord & Hl & Ho). exists ord. intros k v. split; [apply Ho|]. intros [Hv <-].
    destruct (lookup_lt_is_Some_2 ord (pos v)) as [u Hu]; [rewrite Hl; auto|]. rewrite Hu. f_equal. destruct (Ho _ _ Hu) as [Hu1 Hu2]. apply Inj; auto.
  Qed.

  Lemma new_built : exists x ord, hld_new e op idm g root = Ok x /\ built x (replicate n e) ord.
  Proof.
    destruct (tree_rtree g T root Hr) as (par & dep & R). destruct (hl_new_ok g root par dep R) as (h & hv & pos & posr & E & D).
    destruct (ord_exists pos) as (ord & Hord); [apply (d_onto _ _ _ _ _ _ _ _ D)|intros v Hv; apply (d_lt _ _ _ _ _ _ _ _ D v Hv)|apply (d_inj _ _ _ _ _ _ _ _ D)|].
    unfold hld_new, lt_new. destruct (Nat.ltb_spec root n); [|lia]. cbn [rassert mbind res_bind].
    destruct (from_inv e op idm mapping comp L ML (replicate n e)) as (t & -> & I); [rewrite replicate_length; exact Hn|]. cbn [mbind res_bind].
    rewrite E. cbn [mbind res_bind]. exists (Hld t h), ord. split; [reflexivity|]. exists par, dep, hv, pos, posr, h.
    split; [exact R|]. split; [exact D|]. split; [exact Hord|]. split; [reflexivity|]. exists (replicate n e). split; [exact I|]. split; [apply replicate_length|].
    apply list_eq. intros v. destruct (decide (v < n)) as [Hv|Hv].
    - rewrite (wof_lookup e g root par dep h hv pos posr D) by (auto; apply replicate_length). rewrite !lookup_replicate_2; auto. apply (d_lt _ _ _ _ _ _ _ _ D v Hv).
    - rewrite !lookup_ge_None_2; [reflexivity|rewrite wof_length; lia|rewrite replicate_length; lia].
  Qed.

  Lemma with_init_built w : length w = n -> exists x ord, hld_with_init e op idm g root w = Ok x /\ built x w ord.
  Proof.
    intros Hw. destruct new_built as (x & ord & E & par & dep & hv & pos & posr & h & R & D & Hord & [Hx _]).
    unfold hld_with_init. rewrite Hw, Nat.eqb_refl. cbn [rassert mbind res_bind]. rewrite E. cbn [mbind res_bind]. rewrite Hx. unfold range.
    destruct (rfor_range_inv (fun i a => length a = n /\ forall j, j < i -> a !! pos j = w !! j) 0 n
      (fun i a => p ← vget (h_pos h) i; x ← vget w i; vset a p x) w) as (a & -> & Ha & Hv).
    - lia.
    - split; [exact Hw|]. intros j Hj. lia.
    - intros i a Hi [Ha Hv]. rewrite (vget_ok _ _ _ (d_pos _ _ _ _ _ _ _ _ D i ltac:(lia))). cbn [mbind res_bind].
      destruct (vget_lt w i) as (y & -> & Hy); [lia|]. cbn [mbind res_bind]. assert (pos i < n) as Hp by (apply (d_lt _ _ _ _ _ _ _ _ D); lia).
      rewrite vset_ok by lia. eexists. split; [reflexivity|]. split; [rewrite insert_length; exact Ha|].
      intros j Hj. destruct (decide (j = i)) as [->|Hne]; [rewrite list_lookup_insert by lia; congruence|].
      rewrite list_lookup_insert_ne; [apply Hv; lia|]. intros Ep. apply Hne. symmetry. apply (d_inj _ _ _ _ _ _ _ _ D); auto; lia.
    - cbn [mbind res_bind]. destruct (from_inv e op idm mapping comp L ML a) as (t & -> & I); [rewrite Ha; exact Hn|]. cbn [mbind res_bind].
      exists (Hld t h), ord. split; [reflexivity|]. exists par, dep, hv, pos, posr, h. split; [exact R|]. split; [exact D|]. split; [exact Hord|].
      split; [reflexivity|]. exists a. split; [exact I|]. split; [exact Ha|]. apply list_eq. intros v. destruct (decide (v < n)) as [Hvn|Hvn].
      + rewrite (wof_lookup e g root par dep h hv pos posr D) by auto. symmetry. apply Hv. lia.
      + rewrite !lookup_ge_None_2; [reflexivity|rewrite wof_length; lia|lia].
  Qed.

  Lemma built_ord x w ord : built x w ord -> visiting_order g root ord /\ places ord (h_pos (hd_tree x)).
  Proof.
    intros (par & dep & hv & pos & posr & h & R & D & Hord & [Hx _]). split; [eapply ord_visiting; eauto|]. rewrite Hx.
    pose proof (hw_pos _ _ (d_wf _ _ _ _ _ _ _ _ D)) as Hl. split; [rewrite Hl; symmetry; eapply ord_length; eauto|].
    intros v p. rewrite Hord. split.
    - intros H. assert (v < n) as Hv by (apply lookup_lt_Some in H; lia). rewrite (d_pos _ _ _ _ _ _ _ _ D v Hv) in H. injection H as <-. auto.
    - intros [Hv <-]. apply (d_pos _ _ _ _ _ _ _ _ D v Hv).
  Qed.
  Lemma built_run x w ord ops : built x w ord -> hld_allowed_run e op mapping g root ord (by_pieces g root ord) w ops (fmap snd (run (hld_step e op idm mapping comp) x ops)).
  Proof. intros (par & dep & hv & pos & posr & h & R & D & Hord & Hi). eapply run_ok; eauto. Qed.
  Lemma built_reach ops : forall x w ord x' outs, built x w ord -> run (hld_step e op idm mapping comp) x ops = Ok (x', outs) -> exists w', built x' w' ord.
  Proof.
    induction ops as [|o ops IH]; intros x w ord x' outs B H; cbn [run] in H; [injection H as <- _; eauto|].
    pose proof B as (par & dep & hv & pos & posr & h & R & D & Hord & Hi).
    pose proof (step_ok e op idm mapping comp L ML g root par dep R h hv pos posr D ord Hord x w o Hi) as St.
    destruct (hld_step e op idm mapping comp x o) as [[x1 out]| |]; cbn [mbind res_bind] in H; try discriminate. destruct St as (w1 & _ & Hi1).
    destruct (run (hld_step e op idm mapping comp) x1 ops) as [[x2 outs2]| |] eqn:E; cbn [mbind res_bind] in H; try discriminate. injection H as <- _.
    eapply IH; [|exact E]. exists par, dep, hv, pos, posr, h. eauto.
  Qed.
End build.

(** With a commutative operation the order of the factors does not matter. *)
Lemma mprod_perm {S} (e : S) (op : S -> S -> S) : monoid_laws e op -> (forall x y, op x y = op y x) ->
  forall l l', l ≡ₚ l' -> mprod e op l = mprod e op l'.
Proof.
  intros [A _ _] C l l' H. induction H as [|x l l' H IH|x y l|l1 l2 l3 H1 IH1 H2 IH2]; [reflexivity| | |congruence].
  - unfold mprod in *. cbn. rewrite IH. reflexivity.
  - unfold mprod. cbn. rewrite !A. f_equal. apply C.
Qed.
Lemma allowed_comm {S F} (e : S) (op : S -> S -> S) (mapping : F -> S -> S) g root ord : monoid_laws e op -> (forall x y, op x y = op y x) ->
  forall w o out, hld_allowed e op mapping g root ord (by_pieces g root ord) w o out -> hld_allowed e op mapping g root ord eq w o out.
Proof.
  intros L C w o out H. destruct o; try exact H. cbn in *. destruct (_ && _); [|exact H]. destruct H as (l & l' & H1 & [H2 _] & ->).
  exists l, l. split; [exact H1|]. split; [reflexivity|]. do 3 f_equal. apply (mprod_perm e op L C). unfold vals. apply Permutation_map. exact H2.
Qed.
Lemma allowed_run_comm {S F} (e : S) (op : S -> S -> S) (mapping : F -> S -> S) g root ord : monoid_laws e op -> (forall x y, op x y = op y x) ->
  forall w ops out, hld_allowed_run e op mapping g root ord (by_pieces g root ord) w ops out -> hld_allowed_run e op mapping g root ord eq w ops out.
Proof.
  intros L C w ops out H. induction H.
  - constructor.
  - constructor. apply allowed_comm; auto.
  - econstructor; [apply allowed_comm; eauto|assumption].
  - eapply har_later; [apply allowed_comm; eauto|assumption].
Qed.

(** The setting of the theorems: the structure x is built from a tree, by new (every value is the identity)
    or by with_init_value (the values w). *)
Definition hld_built {S F} (e : S) (op : S -> S -> S) (idm : F) (g : list (list nat)) (root : nat) (w : list S) (x : res (hld S F)) : Prop :=
  is_tree g /\ root < length g /\ (Z.of_nat (length g) < 2 ^ 32)%Z /\
  (length w = length g /\ x = hld_with_init e op idm g root w \/ w = replicate (length g) e /\ x = hld_new e op idm g root).

Lemma hld_built_ok {S F} (e : S) op (idm : F) mapping comp g root w x : monoid_laws e op -> map_laws op idm mapping comp ->
  hld_built e op idm g root w x -> exists y ord, x = Ok y /\ built e op idm mapping g root y w ord.
Proof.
  intros L ML (T & Hr & Hn & [[Hw ->]|[-> ->]]).
  - eapply with_init_built; eauto.
  - eapply new_built; eauto.
Qed.

(** C30: there is a visiting order of the tree, given by the public field pos, such that every history of calls
    does what HldSpec allows on one value per vertex: subtree_prod and apply_subtree act on exactly the subtree,
    get and set on one vertex, apply_path on exactly the path, path_prod multiplies the values of the path
    by descending pieces, deepest top first, and the field data is the array of the values in this order; the calls panic exactly on vertices out of range. *)
Theorem C30_history : forall {S F : Type} (e : S) (op : S -> S -> S) (idm : F) (mapping : F -> S -> S) (comp : F -> F -> F),
  monoid_laws e op -> map_laws op idm mapping comp ->
  forall g root w x, hld_built e op idm g root w x ->
  exists y ord, x = Ok y /\ visiting_order g root ord /\ places ord (h_pos (hd_tree y)) /\
    forall ops, hld_allowed_run e op mapping g root ord (by_pieces g root ord) w ops (fmap snd (run (hld_step e op idm mapping comp) y ops)).
Proof.
  intros S F e op idm mapping comp L ML g root w x H. destruct (hld_built_ok e op idm mapping comp g root w x L ML H) as (y & ord & -> & B).
  exists y, ord. split; [reflexivity|]. pose proof H as (T & Hr & Hn & _). assert (visiting_order g root ord /\ places ord (h_pos (hd_tree y))) as [V P] by (eapply built_ord; eauto). split; [exact V|]. split; [exact P|].
  intros ops. eapply built_run; eauto.
Qed.
Print Assumptions C30_history.

(** C30: the constructors panic on a root out of range, on too many vertices, and on a wrong number of values. *)
Theorem C30_constructors_panic : forall {S F : Type} (e : S) (op : S -> S -> S) (idm : F) g root (w : list S),
  (length g <= root \/ (2 ^ 32 <= Z.of_nat (length g))%Z -> hld_new (S := S) (F := F) e op idm g root = Panic) /\
  (length g <= root \/ (2 ^ 32 <= Z.of_nat (length g))%Z \/ length w <> length g -> hld_with_init e op idm g root w = Panic).
Proof.
  intros S F e op idm g root w.
  assert (length g <= root \/ (2 ^ 32 <= Z.of_nat (length g))%Z -> hld_new (S := S) (F := F) e op idm g root = Panic) as H.
  { intros H. unfold hld_new. destruct (Nat.ltb_spec root (length g)) as [Hlt|Hlt]; [|reflexivity]. cbn [rassert mbind res_bind].
    unfold lt_new. rewrite from_huge; [reflexivity|]. rewrite replicate_length. lia. }
  split; [exact H|]. intros H'. unfold hld_with_init. destruct (Nat.eqb_spec (length g) (length w)) as [E|E]; [|reflexivity]. cbn [rassert mbind res_bind].
  rewrite H; [reflexivity|]. destruct H' as [H'|[H'|H']]; [auto|auto|congruence].
Qed.
Print Assumptions C30_constructors_panic.

(** C29: after any history, apply_path(u, v, f) returns, and get of any vertex afterwards gives the value mapped by f
    exactly when the vertex is on the path between u and v, and the old value otherwise. *)
Theorem C29_apply_path : forall {S F : Type} (e : S) (op : S -> S -> S) (idm : F) (mapping : F -> S -> S) (comp : F -> F -> F),
  monoid_laws e op -> map_laws op idm mapping comp ->
  forall g root w x, hld_built e op idm g root w x ->
  forall ops y z outs, x = Ok y -> run (hld_step e op idm mapping comp) y ops = Ok (z, outs) ->
  forall u v f l c, u < length g -> v < length g -> is_path g u v l -> c < length g ->
  exists z' t old new t', apply_path op idm mapping comp z u v f = Ok z' /\
    hld_get idm mapping comp z c = Ok (t, old) /\ hld_get idm mapping comp z' c = Ok (t', new) /\
    new = if decide (c ∈ l) then mapping f old else old.
Proof.
  intros S F e op idm mapping comp L ML g root w x H ops y z outs -> Hrun u v f l c Hu Hv [Hw Hnd] Hc.
  destruct (hld_built_ok e op idm mapping comp g root w _ L ML H) as (y' & ord & [= <-] & B).
  pose proof H as (T & Hr & Hn & _). assert (exists w', built e op idm mapping g root z w' ord) as (w1 & par & dep & hv & pos & posr & h & R & D & Hord & Hi) by (eapply built_reach; eauto).
  pose proof (step_ok e op idm mapping comp L ML g root par dep R h hv pos posr D ord Hord) as St.
  assert (length w1 = length g) as Hl1 by (destruct Hi as [_ (a & _ & _ & ->)]; apply wof_length).
  pose proof (St z w1 (HApplyPath u v f) Hi) as S1. pose proof (St z w1 (HGet c) Hi) as S2. cbn [hld_step hld_allowed] in S1, S2.
  apply Nat.ltb_lt in Hu, Hv. rewrite Hu, Hv in S1. cbn [andb] in S1.
  destruct (lookup_lt_is_Some_2 w1 c) as [old Hold]; [lia|]. rewrite Hold in S2.
  destruct (hld_get idm mapping comp z c) as [[t x2]| |]; cbn [mbind res_bind] in S2; [|discriminate|contradiction]. destruct S2 as (w2 & [= <- ->] & _).
  destruct (apply_path op idm mapping comp z u v f) as [z'| |]; cbn [mbind res_bind] in S1; [|destruct S1 as (? & ? & ? & ? & ?); discriminate|contradiction].
  destruct S1 as (w3 & (l' & w4 & [Hw' Hnd'] & [Hlen M] & [= ->]) & Hi').
  assert (l' = l) as -> by (eapply walk_unique; eauto). destruct (M c old Hold) as [M1 M2].
  pose proof (St z' w4 (HGet c) Hi') as S3. cbn [hld_step hld_allowed] in S3.
  destruct (decide (c ∈ l)) as [Hin|Hin].
  - rewrite (M1 Hin) in S3. destruct (hld_get idm mapping comp z' c) as [[t' x4]| |] eqn:E3; cbn [mbind res_bind] in S3; [|discriminate|contradiction].
    destruct S3 as (? & [= _ ->] & _). eexists z', _, _, _, t'. split; [reflexivity|]. split; [reflexivity|]. split; [exact E3|reflexivity].
  - rewrite (M2 Hin) in S3. destruct (hld_get idm mapping comp z' c) as [[t' x4]| |] eqn:E3; cbn [mbind res_bind] in S3; [|discriminate|contradiction].
    destruct S3 as (? & [= _ ->] & _). eexists z', _, _, _, t'. split; [reflexivity|]. split; [reflexivity|]. split; [exact E3|reflexivity].
Qed.
Print Assumptions C29_apply_path.

(** C28 for commutative operations: in every history, path_prod(u, v) is the product along the path from u to v. *)
Theorem C28_path_prod_partial : forall {S F : Type} (e : S) (op : S -> S -> S) (idm : F) (mapping : F -> S -> S) (comp : F -> F -> F),
  monoid_laws e op -> map_laws op idm mapping comp -> (forall x y, op x y = op y x) ->
  forall g root w x, hld_built e op idm g root w x ->
  exists y ord, x = Ok y /\ visiting_order g root ord /\ places ord (h_pos (hd_tree y)) /\
    forall ops, hld_allowed_run e op mapping g root ord eq w ops (fmap snd (run (hld_step e op idm mapping comp) y ops)).
Proof.
  intros S F e op idm mapping comp L ML C g root w x H. destruct (C30_history e op idm mapping comp L ML g root w x H) as (y & ord & E & V & P & A).
  exists y, ord. split; [exact E|]. split; [exact V|]. split; [exact P|]. intros ops. apply allowed_run_comm; auto.
Qed.
Print Assumptions C28_path_prod_partial.

(** C56: path_prod and apply_path make at most 2 * log2 n + 1 calls on the segment tree: with the loop cut off after
    2 * log2 n turns (fuel k allows k - 1 turns) they return the same. *)
Theorem C56_few_ranges : forall {S F : Type} (e : S) (op : S -> S -> S) (idm : F) (mapping : F -> S -> S) (comp : F -> F -> F),
  monoid_laws e op -> map_laws op idm mapping comp ->
  forall g root w x, hld_built e op idm g root w x ->
  forall ops y z outs, x = Ok y -> run (hld_step e op idm mapping comp) y ops = Ok (z, outs) ->
  forall u v, u < length g -> v < length g ->
  (exists r, path_prod_fuel e op idm mapping comp (2 * Nat.log2 (length g) + 1) z u v = Ok r /\ path_prod e op idm mapping comp z u v = Ok r) /\
  (forall f, exists r, apply_path_fuel op idm mapping comp (2 * Nat.log2 (length g) + 1) z u v f = Ok r /\ apply_path op idm mapping comp z u v f = Ok r).
Proof.
  intros S F e op idm mapping comp L ML g root w x H ops y z outs -> Hrun u v Hu Hv.
  destruct (hld_built_ok e op idm mapping comp g root w _ L ML H) as (y' & ord & [= <-] & B).
  pose proof H as (T & Hr & Hn & _). assert (exists w', built e op idm mapping g root z w' ord) as (w1 & par & dep & hv & pos & posr & h & R & D & Hord & [Hx (a & I & Ha & ->)]) by (eapply built_reach; eauto).
  destruct z as [t h']. cbn [hd_tree hd_data] in *. subst h'.
  pose proof (fuel_enough g root par dep R h hv pos posr D u v Hu Hv) as Hf.
  pose proof (path_fuel_enough (S := S) (F := F) g root par dep R h hv pos posr D t) as Hp. split.
  - destruct (path_prod_ok e op idm mapping comp L ML g root par dep R h hv pos posr D a t u v _ I Ha Hu Hv Hf) as (t' & l & E & _).
    eexists. split; [exact E|]. unfold path_prod, path_prod_fuel in *. apply rbind_ok_inv in E as (s & E1 & E2). rewrite (rloop_more _ _ _ _ _ E1 Hp). exact E2.
  - intros f. destruct (apply_path_ok e op idm mapping comp L ML g root par dep R h hv pos posr D a t u v f _ I Ha Hu Hv Hf) as (t' & a' & l & E & _).
    eexists. split; [exact E|]. unfold apply_path, apply_path_fuel in *. apply rbind_ok_inv in E as (s & E1 & E2). rewrite (rloop_more _ _ _ _ _ E1 Hp). exact E2.
Qed.
Print Assumptions C56_few_ranges.

(** Concatenation of lists, with the identity as the only map. *)
Definition cat_map (f : unit) (l : list nat) : list nat := l.
Definition cat_comp (f h : unit) : unit := tt.
Lemma cat_laws : monoid_laws (@nil nat) (@app nat) /\ map_laws (@app nat) tt cat_map cat_comp.
Proof. split; split; try reflexivity; intros; [apply app_assoc|apply app_nil_r]. Qed.

(** C28 fails for operations that do not commute: on the path 0 - 1 - 2, path_prod(2, 0) multiplies from 0 to 2. *)
Theorem C28_path_prod_refuted : exists (g : list (list nat)) (w : list (list nat)) (x : hld (list nat) unit) (u v : nat) (l : list nat) (y : hld (list nat) unit) (r : list nat),
  hld_built [] app tt g 0 w (Ok x) /\ is_path g u v l /\
  path_prod [] app tt cat_map cat_comp x u v = Ok (y, r) /\ r <> mprod [] app (vals [] w l).
Proof.
  assert (is_tree [[1]; [0; 2]; [1]]) as T.
  { apply (rtree_tree _ 0 (fun v => v - 1) (fun v => v)). split; [cbn; lia|reflexivity|reflexivity| | |].
    - intros v Hv Hne. cbn in *. lia.
    - intros u es Hes. do 3 (destruct u as [|u]; [injection Hes as <-; apply (bool_decide_unpack _); vm_compute; exact I|]). discriminate.
    - intros u es v Hes. do 3 (destruct u as [|u]; [injection Hes as <-; rewrite !elem_of_cons, elem_of_nil; cbn; lia|]). discriminate. }
  eassert (hld_with_init [] app tt [[1]; [0; 2]; [1]] 0 [[10]; [11]; [12]] = Ok _) as E by (vm_compute; reflexivity).
  exists [[1]; [0; 2]; [1]], [[10]; [11]; [12]]. eexists _, 2, 0, [2; 1; 0], _, _. split.
  { split; [exact T|]. split; [cbn; lia|]. split; [cbn; lia|]. left. split; [reflexivity|]. symmetry. exact E. }
  split; [|split; [vm_compute; reflexivity|discriminate]].
  split; [|apply (bool_decide_unpack _); vm_compute; exact I].
  apply (walk_cons _ 2 1 0); [exists [1]; split; [reflexivity|rewrite !elem_of_cons; auto]|]. apply (walk_cons _ 1 0 0); [exists [0; 2]; split; [reflexivity|rewrite !elem_of_cons; auto]|]. constructor.
Qed.
Print Assumptions C28_path_prod_refuted.

(** A tree on 7 vertices rooted at 3, lists of numbers under concatenation, affine maps on the entries. *)
Definition ex_hld := hld_with_init (F := nat * nat) [] app (1, 0) ex_tree 3 [[10]; [11]; [12]; [13]; [14]; [15]; [16]].
Definition ex_step := hld_step [] (@app nat) (1, 0) aff_map aff_comp.
Example C30_nonvacuous : hld_built [] (@app nat) (1, 0) ex_tree 3 [[10]; [11]; [12]; [13]; [14]; [15]; [16]] ex_hld /\
  (fmap snd (x ← ex_hld; run ex_step x [HSubtreeProd 4; HApplyPath 5 1 (2, 1); HSet 6 [7]; HApplySubtree 4 (1, 100); HPathProd 6 1; HGet 3; HData LzAllProd; HGet 7])) = Panic /\
  (fmap snd (x ← ex_hld; run ex_step x [HSubtreeProd 4; HApplyPath 5 1 (2, 1); HSet 6 [7]; HApplySubtree 4 (1, 100); HPathProd 6 1; HGet 3; HData LzAllProd]))
    = Ok [HVal [14; 15; 16]; HUnit; HUnit; HUnit; HVal [107; 21; 23; 25; 129]; HVal [13];
          HDataOut (LzVal [13; 25; 129; 131; 107; 21; 23])].
Proof.
  split; [|split; vm_compute; reflexivity]. split; [apply ex_tree_ok|]. split; [cbn; lia|]. split; [cbn; lia|]. left. split; reflexivity.
Qed.
