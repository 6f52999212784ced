(** Clients that assign public fields (C108). *)
From Verif Require Import Prelude UtilModel ArraySpec LazySpec LazyModel LazyProof LazyTop LazyProps TreeSpec TreeProof LiftModel LiftProof LiftProps HldSpec HldModel HldTree HldProof HldOps HldProps
  TreeAgreeProof FieldModel FieldSpec FieldProof.

Lemma nsub_eq a b : nsub a b = if b <=? a then Ok (a - b) else Panic.
Proof. reflexivity. Qed.

(** The field dep is not read by is_ancestor and lca. *)
Lemma lca_with_dep b W u v : bl_lca (with_dep b W) u v = bl_lca b u v.
Proof. reflexivity. Qed.

(** dis with any contents of dep: the vertices in place are u, v and their lowest common ancestor l, and the answer is
    (W[u] - W[l] + W[v]) - W[l], evaluated from the left in usize; every other case panics. *)
Theorem C108_any_dep : forall g root, lift_ok g root (fun b => forall W u v, u < length g -> v < length g ->
  exists l, l < length g /\ is_lca g root u v l /\ bl_lca (with_dep b W) u v = Ok l /\ bl_is_ancestor (with_dep b W) u v = bl_is_ancestor b u v /\
    bl_dis_usize (with_dep b W) u v <> Diverge /\
    forall d, bl_dis_usize (with_dep b W) u v = Ok d <->
      exists du dl dv, W !! u = Some du /\ W !! l = Some dl /\ W !! v = Some dv /\
        dl <= du /\ (Z.of_nat (du - dl + dv) < 2 ^ 64)%Z /\ d + 2 * dl = du + dv).
Proof.
  intros g root T Hr Hn. destruct (C21_lca g root T Hr Hn) as (b & Eb & Hl). exists b. split; [exact Eb|]. intros W u v Hu Hv.
  destruct (Hl u v Hu Hv) as (l & El & Hln & IL). exists l. split; [exact Hln|]. split; [exact IL|]. split; [exact El|]. split; [reflexivity|].
  unfold bl_dis_usize. rewrite lca_with_dep, El. cbn [mbind res_bind bl_dep with_dep].
  assert (forall i, vget W i = match W !! i with Some x => Ok x | None => Panic end) as Hg by (intros i; unfold vget; destruct (W !! i); reflexivity).
  rewrite !Hg. destruct (W !! u) as [du|]; cbn [mbind res_bind]; [|split; [discriminate|intros d; split; [discriminate|intros (? & ? & ? & ? & _); discriminate]]].
  destruct (W !! l) as [dl|]; cbn [mbind res_bind]; [|split; [discriminate|intros d; split; [discriminate|intros (? & ? & ? & _ & ? & _); discriminate]]].
  rewrite nsub_eq. destruct (Nat.leb_spec dl du) as [H1|H1]; cbn [mbind res_bind];
    [|split; [discriminate|intros d; split; [discriminate|intros (? & ? & ? & [= <-] & [= <-] & _ & ? & _); lia]]].
  destruct (W !! v) as [dv|]; cbn [mbind res_bind]; [|split; [discriminate|intros d; split; [discriminate|intros (? & ? & ? & _ & _ & ? & _); discriminate]]].
  destruct (Z.ltb_spec (Z.of_nat (du - dl + dv)) (2 ^ 64)) as [H2|H2]; cbn [mbind res_bind];
    [|split; [discriminate|intros d; split; [discriminate|intros (? & ? & ? & [= <-] & [= <-] & [= <-] & _ & ? & _); lia]]].
  rewrite nsub_eq. destruct (Nat.leb_spec dl (du - dl + dv)) as [H3|H3].
  - split; [discriminate|]. intros d. split.
    + intros [= <-]. exists du, dl, dv. split_and!; auto; lia.
    + intros (? & ? & ? & [= <-] & [= <-] & [= <-] & _ & _ & E). f_equal. lia.
  - split; [discriminate|]. intros d. split; [discriminate|]. intros (? & ? & ? & [= <-] & [= <-] & [= <-] & _ & _ & E). lia.
Qed.
Print Assumptions C108_any_dep.

(** dis in usize agrees with C22 on the depths stored by from. *)
Theorem C108_own_dep : forall g root, (Z.of_nat (length g) < 2 ^ 63)%Z -> lift_ok g root (fun b => forall u v, bl_dis_usize b u v = bl_dis b u v).
Proof.
  intros g root Hs T Hr Hn. destruct (tree_rtree g T root Hr) as (par & dep & R). destruct (from_ok g root par dep R Hn) as (b & lv & Eb & H1 & H2 & B).
  exists b. split; [exact Eb|]. intros u v. destruct (decide (u < length g /\ v < length g)) as [[Hu Hv]|Hne].
  - destruct (lca_ok g root par dep R lv H1 H2 b B u v Hu Hv) as (l & El & Hln & _). unfold bl_dis_usize, bl_dis. rewrite El. cbn [mbind res_bind].
    rewrite (vget_ok _ _ _ (b_dep _ _ _ _ _ B u Hu)), (vget_ok _ _ _ (b_dep _ _ _ _ _ B l Hln)), (vget_ok _ _ _ (b_dep _ _ _ _ _ B v Hv)). cbn [mbind res_bind].
    pose proof (dep_lt _ _ _ _ R u Hu). pose proof (dep_lt _ _ _ _ R v Hv).
    rewrite (nsub_eq (dep u)). destruct (dep l <=? dep u); cbn [mbind res_bind]; [|reflexivity].
    destruct (Z.ltb_spec (Z.of_nat (dep u - dep l + dep v)) (2 ^ 64)); [reflexivity|lia].
  - assert (bl_lca b u v = Panic) as El; [|unfold bl_dis_usize, bl_dis; rewrite El; reflexivity].
    destruct (C20_panics g root) as [_ HP]. destruct (HP T Hr Hn) as (b' & Eb' & Hp). rewrite Eb in Eb'. injection Eb' as <-. apply Hp. lia.
Qed.
Print Assumptions C108_own_dep.

(** dep replaced by weighted depths: dis is the weighted distance. *)
Theorem C108_weighted : forall g root, lift_ok g root (fun b => forall (c : nat -> nat -> nat) W, (forall x y, c x y = c y x) ->
  (forall x p, is_path g root x p -> W !! x = Some (wlen c p)) ->
  forall u v p, u < length g -> v < length g -> is_path g u v p ->
  exists l pl pv, is_lca g root u v l /\ is_path g u l pl /\ is_path g root v pv /\
    bl_dis_usize (with_dep b W) u v = if (Z.of_nat (wlen c pl + wlen c pv) <? 2 ^ 64)%Z then Ok (wlen c p) else Panic).
Proof.
  intros g root T Hr Hn. destruct (tree_rtree g T root Hr) as (par & dep & R). destruct (C21_lca g root T Hr Hn) as (b & Eb & Hl). exists b. split; [exact Eb|]. intros c W C HW u v p Hu Hv P.
  destruct (Hl u v Hu Hv) as (l & El & Hln & IL). pose proof (proj1 (is_lca_iff _ _ _ _ R u v l Hu Hv Hln) IL) as L.
  destruct (tree_path _ T u l Hu Hln) as (pl & Pl). destruct (tree_path _ T root v Hr Hv) as (pv & Pv). destruct (tree_path _ T root l Hr Hln) as (p0 & P0).
  destruct (tree_path _ T l v Hln Hv) as (q & Q). destruct (tree_path _ T root u Hr Hu) as (pu & Pu).
  exists l, pl, pv. split; [exact IL|]. split; [exact Pl|]. split; [exact Pv|]. pose proof L as (A & B & _).
  pose proof (anc_dep _ _ _ _ R l u Hu A) as Du. pose proof (anc_dep _ _ _ _ R l v Hv B) as Dv.
  assert (forall x y z, x < length g -> y < length g -> lcap par x y z -> is_dist g x y (dep x + dep y - 2 * dep z)) as HD by (intros; eapply dist_ok; eauto).
  assert (forall x y, x < length g -> y < length g -> anc par x y -> is_dist g x y (dep y - dep x)) as HA.
  { intros x y Hx Hy Axy. pose proof (anc_dep _ _ _ _ R x y Hy Axy). replace (dep y - dep x) with (dep x + dep y - 2 * dep x) by lia. apply HD; auto. apply lcap_anc. exact Axy. }
  assert (forall x, x < length g -> anc par root x) as AR by (intros x Hx; apply (anc_root _ _ _ _ R x Hx)).
  pose proof (t_root_dep _ _ _ _ R) as D0.
  assert (lcap par u l l) as Lul by (split; [exact A|split; [apply anc_refl|auto]]).
  assert (wlen c pu = wlen c p0 + wlen c pl) as Eu.
  { rewrite <- (wlen_rev c pl C). apply (path_wlen c g root l u p0 (rev pl) pu (dep l - dep root) (dep u - dep l) T P0 (path_rev g u l pl T Pl) Pu); auto.
    replace (dep l - dep root + (dep u - dep l)) with (dep u - dep root) by lia. auto. }
  assert (wlen c pv = wlen c p0 + wlen c q) as Ev.
  { apply (path_wlen c g root l v p0 q pv (dep l - dep root) (dep v - dep l) T P0 Q Pv); auto.
    replace (dep l - dep root + (dep v - dep l)) with (dep v - dep root) by lia. auto. }
  assert (wlen c p = wlen c pl + wlen c q) as Ep.
  { apply (path_wlen c g u l v pl q p (dep u + dep l - 2 * dep l) (dep v - dep l) T Pl Q P); auto.
    replace (dep u + dep l - 2 * dep l + (dep v - dep l)) with (dep u + dep v - 2 * dep l) by lia. auto. }
  unfold bl_dis_usize. rewrite lca_with_dep, El. cbn [mbind res_bind bl_dep with_dep].
  rewrite (vget_ok _ _ _ (HW u pu Pu)), (vget_ok _ _ _ (HW l p0 P0)), (vget_ok _ _ _ (HW v pv Pv)). cbn [mbind res_bind].
  rewrite (nsub_eq (wlen c pu)), (proj2 (Nat.leb_le _ _)) by lia. cbn [mbind res_bind]. replace (wlen c pu - wlen c p0) with (wlen c pl) by lia.
  destruct (Z.of_nat (wlen c pl + wlen c pv) <? 2 ^ 64)%Z; cbn [mbind res_bind]; [|reflexivity].
  rewrite nsub_eq, (proj2 (Nat.leb_le _ _)) by lia. f_equal. lia.
Qed.
Print Assumptions C108_weighted.

(** data replaced: after any history of an HLD, any LazySegtree t with one entry per vertex, itself the result of any history,
    can be assigned to the field data; the HLD then acts on the values that t holds at the positions of the vertices. *)
Theorem C108_hld_data : forall {S F : Type} (e : S) (op : S -> S -> S) (idm : F) (mapping : F -> S -> S) (comp : F -> F -> F),
  monoid_laws e op -> map_laws op idm mapping comp ->
  forall g root w x, hld_built e op idm g root w x ->
  forall ops y z outs, x = Ok y -> run (hld_step e op idm mapping comp) y ops = Ok (z, outs) ->
  exists ord, visiting_order g root ord /\ places ord (h_pos (hd_tree z)) /\
  forall a0 lops t0 t louts, length a0 = length g -> lt_from e op idm a0 = Ok t0 -> run (lt_step e op idm mapping comp) t0 lops = Ok (t, louts) ->
  exists w', length w' = length g /\
    (forall v p, h_pos (hd_tree z) !! v = Some p -> exists c, w' !! v = Some c /\ snd <$> lt_get idm mapping comp t p = Ok c) /\
    forall ops', hld_allowed_run e op mapping g root ord (by_pieces g root ord) w' ops' (snd <$> run (hld_step e op idm mapping comp) (with_data z t) ops').
Proof.
  intros S F e op idm mapping comp L ML g root w x H ops y z outs -> Hrun.
  destruct (hld_built_ok e op idm mapping comp g root w _ L ML H) as (y' & ord & [= <-] & B). pose proof H as (T & Hr & Hn & _).
  destruct (built_reach e op idm mapping comp L ML g root ops y w ord z outs B Hrun) as (w1 & B1).
  assert (visiting_order g root ord /\ places ord (h_pos (hd_tree z))) as [V P] by (eapply built_ord; eauto).
  exists ord. split; [exact V|]. split; [exact P|]. intros a0 lops t0 t louts Ha E0 Et.
  assert (forall lops t0 a0 t louts, LInv e op idm mapping t0 a0 -> run (lt_step e op idm mapping comp) t0 lops = Ok (t, louts) -> exists a, LInv e op idm mapping t a /\ length a = length a0) as HL.
  { clear -L ML. induction lops as [|o lops IH]; intros t0 a0 t louts I E; cbn [run] in E; [injection E as <- _; eauto|].
    pose proof (step_allowed e op idm mapping comp L ML t0 a0 I o) as St.
    destruct (lt_step e op idm mapping comp t0 o) as [[t1 out]| |]; cbn [mbind res_bind] in E; try discriminate. destruct St as (a1 & A1 & I1).
    destruct (run (lt_step e op idm mapping comp) t1 lops) as [[t2 outs2]| |] eqn:E2; cbn [mbind res_bind] in E; try discriminate. injection E as <- _.
    destruct (IH t1 a1 t2 outs2 I1 E2) as (a & I2 & La). exists a. split; [exact I2|]. rewrite La. eapply allowed_length; eauto. }
  destruct (from_inv e op idm mapping comp L ML a0 ltac:(lia)) as (t0' & E0' & I0). rewrite E0 in E0'. injection E0' as <-.
  destruct (HL lops t0 a0 t louts I0 Et) as (a & I & La).
  pose proof B1 as (par & dep & hv & pos & posr & h & R & D & Hord & [Hx _]).
  exists (wof e g pos a). split; [apply wof_length|]. split.
  - intros v p Hp. rewrite Hx in Hp. assert (v < length g) as Hv by (rewrite <- (hw_pos _ _ (d_wf _ _ _ _ _ _ _ _ D)); apply lookup_lt_Some in Hp; exact Hp).
    rewrite (d_pos _ _ _ _ _ _ _ _ D v Hv) in Hp. injection Hp as <-. destruct (lookup_lt_is_Some_2 a (pos v)) as [c Hc]; [rewrite La, Ha; apply (d_lt _ _ _ _ _ _ _ _ D v Hv)|].
    exists c. rewrite (wof_lookup e g root par dep h hv pos posr D a v) by (auto; lia). split; [exact Hc|]. destruct (get_ok e op idm mapping comp L ML t a I (pos v) c Hc) as (t' & -> & _). reflexivity.
  - intros ops'. eapply built_run; eauto. exists par, dep, hv, pos, posr, h. split; [exact R|]. split; [exact D|]. split; [exact Hord|]. split; [exact Hx|].
    exists a. split; [exact I|]. split; [lia|reflexivity].
Qed.
Print Assumptions C108_hld_data.

(** The tree of LiftProps, rooted at 3, with the weight 10 (u + v) on the edge between u and v, and a data assigned after calls on it. *)
Definition ex_weight (u v : nat) : nat := 10 * (u + v).
Definition ex_depths : list nat := [70; 80; 50; 0; 110; 200; 210].
Lemma ex_weighted x p : is_path ex_tree 3 x p -> ex_depths !! x = Some (wlen ex_weight p).
Proof.
  intros P. assert (exists q, is_path ex_tree 3 x q /\ ex_depths !! x = Some (wlen ex_weight q)) as (q & Q & E).
  { assert (x < 7) as Hx by (destruct (tree_rtree ex_tree ex_tree_ok 3 ltac:(cbn; lia)) as (par & dep & R); apply (walk_lt _ _ _ _ R 3 x p); [apply P|cbn; lia]).
    exists (nth x [[3; 2; 0]; [3; 2; 0; 1]; [3; 2]; [3]; [3; 2; 4]; [3; 2; 4; 5]; [3; 2; 4; 6]] []).
    assert (forall u v es, ex_tree !! u = Some es -> v ∈ es -> edge ex_tree u v) as He by (intros u v es E1 E2; exists es; auto).
    assert (x = 0 \/ x = 1 \/ x = 2 \/ x = 3 \/ x = 4 \/ x = 5 \/ x = 6) as Hc by lia. clear P Hx.
    repeat destruct Hc as [Hc|Hc]; subst x; (split; [|reflexivity]); (split; cbn;
      [repeat (first [apply walk_nil | eapply walk_cons]); (eapply He; [reflexivity|rewrite !elem_of_cons; auto])
      |repeat (apply NoDup_cons; split; [rewrite ?elem_of_cons, ?elem_of_nil; lia|]); apply NoDup_nil_2]). }
  rewrite E. f_equal. f_equal. apply (tree_unique _ ex_tree_ok 3 x); try apply Q; apply P.
Qed.
Example C108_nonvacuous :
  (forall x y, ex_weight x y = ex_weight y x) /\ (forall x p, is_path ex_tree 3 x p -> ex_depths !! x = Some (wlen ex_weight p)) /\
  (b ← bl_from ex_tree 3; bl_dis_usize (with_dep b ex_depths) 5 1) = Ok 180 /\ wlen ex_weight [5; 4; 2; 0; 1] = 180 /\
  (b ← bl_from ex_tree 3; bl_dis_usize (with_dep b [5]) 5 1) = Panic /\
  (fmap snd (x ← ex_hld; y ← run ex_step x [HApplyPath 5 1 (2, 1)];
     t ← lt_from [] (@app nat) (1, 0) [[0]; [1]; [2]; [3]; [4]; [5]; [6]];
     t ← run (lt_step [] (@app nat) (1, 0) aff_map aff_comp) t [LzApplyRange 1 4 (1, 10)];
     run ex_step (with_data y.1 t.1) [HSubtreeProd 4; HGet 3; HPathProd 3 5])) = Ok [HVal [12; 13; 4]; HVal [0]; HVal [0; 11; 12; 13]].
Proof.
  split; [intros x y; unfold ex_weight; lia|]. split; [exact ex_weighted|]. split; [vm_compute; reflexivity|]. split; [vm_compute; reflexivity|]. split; vm_compute; reflexivity.
Qed.
