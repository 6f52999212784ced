(** The public fields tin and tout of BinaryLifting (C106). *)
From Verif Require Import Prelude ArraySpec TreeSpec HldSpec LiftModel LiftProof SegtreeSpec SegtreeModel SegtreeProof EulerSpec EulerModel EulerProof.

(** Whenever dfs returns, on any graph and from any tables: it visits in the order of the depth-first search, the timer counts the
    visits, and the entries of vertices not visited stay; if no vertex is visited twice, tin of a visited vertex is the number of
    earlier visits and tout is larger by the number of visits up to its return. *)
Theorem C106_dfs : forall fuel g u p b t b' t', bl_dfs fuel g u p (b, t) = Ok (b', t') ->
  exists l, preorder g u p l /\ (forall l', preorder g u p l' -> l' = l) /\ t' = t + length l /\
    (forall v, v ∉ l.*1 -> bl_tin b' !! v = bl_tin b !! v /\ bl_tout b' !! v = bl_tout b !! v) /\
    (NoDup l.*1 -> forall i v k, l !! i = Some (v, k) -> bl_tin b' !! v = Some (t + i) /\ bl_tout b' !! v = Some (t + i + k)).
Proof.
  intros fuel g u p b t b' t' H. apply dfs_timed in H as (l & P & Et & F & Ti). exists l. split; [exact P|].
  split; [apply (proj1 (preorder_unique g) u p l P)|]. auto.
Qed.
Print Assumptions C106_dfs.

(** from on a tree: the order visits every vertex once, the subtree of u takes the positions from tin[u] to tout[u], and
    tout[u] - tin[u] is the number of its vertices. *)
Theorem C106_euler : forall g root, is_tree g -> root < length g -> (Z.of_nat (length g) < 2 ^ 64)%Z ->
  exists b l, bl_from g root = Ok b /\ preorder g root root l /\ visiting_order g root l.*1 /\
    length (bl_tin b) = length g /\ length (bl_tout b) = length g /\
    forall i u k, l !! i = Some (u, k) -> bl_tin b !! u = Some i /\ bl_tout b !! u = Some (i + k) /\
      NoDup (slice l.*1 i (i + k)) /\ length (slice l.*1 i (i + k)) = k /\
      forall x, x ∈ slice l.*1 i (i + k) <-> x < length g /\ ancestor g root u x.
Proof.
  intros g root T Hr Hn. destruct (from_tour g root T Hr Hn) as (b & l & E & O). exists b, l. split; [exact E|]. split; [apply O|].
  split; [eapply tour_visiting; eauto|]. split; [apply O|]. split; [apply O|]. intros i u k Hi.
  destruct (to_times _ _ _ _ O i u k Hi) as [E1 E2]. split; [exact E1|]. split; [exact E2|].
  destruct (to_block _ _ _ _ O i u k Hi) as [Hk _]. split; [|split].
  - eapply sublist_NoDup_ord; [apply slice_sublist|eapply tour_nodup; eauto].
  - rewrite slice_length; [lia|]. rewrite fmap_length, (tour_length _ _ _ _ O). exact Hk.
  - intros x. assert (u < length g) as Hu.
    { apply in_fst in Hi as [_ Hu]. rewrite (to_perm _ _ _ _ O), elem_of_seq in Hu. lia. }
    rewrite <- (sub_at_elem _ _ _ _ O u Hu). unfold sub_at. rewrite E1, E2. reflexivity.
Qed.
Print Assumptions C106_euler.

Section Client.
  Context {S : Type} (e : S) (op : S -> S -> S) (L : monoid_laws e op).
  Context (g : list (list nat)) (root : nat) (b : bl) (l : list (nat * nat)) (T : tour g root b l).
  Notation ord := (l.*1).

  Lemma vals_at (w : list S) i v : ord !! i = Some v -> vals e w ord !! i = Some (default e (w !! v)).
  Proof. intros H. unfold vals. change (map ?f ?x) with (f <$> x). rewrite list_lookup_fmap, H. reflexivity. Qed.
  Lemma vals_length (w : list S) : length (vals e w ord) = length g.
  Proof. unfold vals. rewrite map_length, fmap_length. apply (tour_length _ _ _ _ T). Qed.
  Lemma vals_slice (w : list S) x y : slice (vals e w ord) x y = vals e w (slice ord x y).
  Proof. unfold slice, vals. change (map ?f ?x) with (f <$> x). rewrite fmap_take, fmap_drop. reflexivity. Qed.
  Lemma vals_insert (w : list S) i v x : length w = length g -> ord !! i = Some v -> <[i:=x]> (vals e w ord) = vals e (<[v:=x]> w) ord.
  Proof.
    intros Hw Hi. assert (v < length w) as Hv.
    { apply elem_of_list_lookup_2 in Hi. rewrite (to_perm _ _ _ _ T), elem_of_seq in Hi. lia. }
    apply list_eq. intros j. destruct (ord !! j) as [y|] eqn:Ej.
    - rewrite (vals_at _ j y Ej). destruct (decide (j = i)) as [->|Hne].
      + assert (y = v) as -> by congruence. rewrite list_lookup_insert by (rewrite vals_length; apply lookup_lt_Some in Hi; rewrite fmap_length, (tour_length _ _ _ _ T) in Hi; exact Hi).
        rewrite list_lookup_insert by exact Hv. reflexivity.
      + rewrite list_lookup_insert_ne by congruence. rewrite (vals_at _ j y Ej). rewrite list_lookup_insert_ne; [reflexivity|].
        intros ->. apply Hne. eapply NoDup_lookup; [eapply tour_nodup; exact T| |]; eauto.
    - apply lookup_ge_None in Ej. rewrite fmap_length, (tour_length _ _ _ _ T) in Ej.
      rewrite !lookup_ge_None_2; rewrite ?insert_length, ?vals_length; auto.
  Qed.

  Lemma sub_from_ok (w : list S) : length w = length g -> (Z.of_nat (length g) < 2 ^ 32)%Z ->
    exists t, sub_from e op b w = Ok t /\ Inv e op t (vals e w ord).
  Proof.
    intros Hw Hn. unfold sub_from.
    destruct (rfor_inv (fun done a => length a = length g /\ forall v, v ∈ done -> exists i x, bl_tin b !! v = Some i /\ w !! v = Some x /\ a !! i = Some x)
      (range 0 (length w)) (fun v a => t ← vget (bl_tin b) v; x ← vget w v; vset a t x) (replicate (length w) e)) as (a & -> & La & Ha).
    - split; [rewrite replicate_length; exact Hw|]. intros v Hv. inversion Hv.
    - intros done v rest a Hs [La Ha]. assert (v < length g /\ v ∉ done) as [Hv Hnew].
      { unfold range in Hs. rewrite Nat.sub_0_r, Hw in Hs. split.
        - assert (v ∈ seq 0 (length g)) as H by (rewrite Hs; apply elem_of_app; right; left). rewrite elem_of_seq in H. lia.
        - pose proof (NoDup_seq 0 (length g)) as H. rewrite Hs in H. apply NoDup_app in H as (_ & H & _). intros Hin. apply (H v Hin). left. }
      destruct (tour_at _ _ _ _ T v Hv) as (i & k & Hi & Ho & Hin). destruct (to_times _ _ _ _ T i v k Hi) as [Ti _].
      destruct (lookup_lt_is_Some_2 w v ltac:(lia)) as [x Hx].
      rewrite (vget_ok _ _ _ Ti). cbn [mbind res_bind]. rewrite (vget_ok _ _ _ Hx). cbn [mbind res_bind]. rewrite vset_ok by lia.
      eexists. split; [reflexivity|]. split; [rewrite insert_length; exact La|]. intros y Hy. apply elem_of_app in Hy as [Hy|Hy].
      + destruct (Ha y Hy) as (j & z & J1 & J2 & J3). exists j, z. split; [exact J1|]. split; [exact J2|]. rewrite list_lookup_insert_ne; [exact J3|].
        intros ->. apply Hnew. assert (y < length g) as Hyn by (apply lookup_lt_Some in J1; rewrite (to_in _ _ _ _ T) in J1; exact J1).
        destruct (tour_at _ _ _ _ T y Hyn) as (j' & k' & Hj & Hjo & _). destruct (to_times _ _ _ _ T j' y k' Hj) as [Tj _].
        assert (j' = j) as -> by congruence. assert (y = v) as <- by congruence. exact Hy.
      + apply elem_of_list_singleton in Hy as ->. exists i, x. split; [exact Ti|]. split; [exact Hx|]. apply list_lookup_insert. lia.
    - cbn [mbind res_bind]. assert (a = vals e w ord) as ->.
      { apply list_eq. intros i. destruct (ord !! i) as [v|] eqn:Ei.
        - rewrite (vals_at _ i v Ei). assert (v < length g) as Hv.
          { apply elem_of_list_lookup_2 in Ei. rewrite (to_perm _ _ _ _ T), elem_of_seq in Ei. lia. }
          destruct (Ha v) as (j & x & J1 & J2 & J3); [unfold range; apply elem_of_seq; lia|].
          rewrite list_lookup_fmap in Ei. destruct (l !! i) as [[v' k]|] eqn:El; [|discriminate]. injection Ei as ->.
          destruct (to_times _ _ _ _ T i v k El) as [Ti _]. assert (j = i) as -> by congruence. rewrite J2. exact J3.
        - apply lookup_ge_None in Ei. rewrite fmap_length, (tour_length _ _ _ _ T) in Ei. rewrite !lookup_ge_None_2; rewrite ?vals_length; auto. lia. }
      apply st_from_inv. rewrite vals_length. exact Hn.
  Qed.

  Lemma sub_refines ops : forall t (w : list S), length w = length g -> Inv e op t (vals e w ord) ->
    fmap snd (run (sub_step e op b) t ops) = fmap snd (run (sub_spec_step e op (sub_at b l)) w ops).
  Proof.
    induction ops as [|o ops IH]; intros t w Hw I; [reflexivity|]. cbn [run].
    assert ((sub_step e op b t o = Panic /\ sub_spec_step e op (sub_at b l) w o = Panic) \/
      exists t' w' out, sub_step e op b t o = Ok (t', out) /\ sub_spec_step e op (sub_at b l) w o = Ok (w', out) /\ length w' = length g /\ Inv e op t' (vals e w' ord)) as
      [[-> ->]|(t' & w' & out & -> & -> & Hw' & I')].
    { destruct o as [v x|v|u]; cbn [sub_step sub_spec_step].
      - destruct (Nat.ltb_spec v (length w)) as [Hv|Hv]; [right|left; rewrite (vget_panic (bl_tin b)) by (rewrite (to_in _ _ _ _ T); lia); auto].
        destruct (tour_at _ _ _ _ T v ltac:(lia)) as (i & k & Hi & Ho & Hin). destruct (to_times _ _ _ _ T i v k Hi) as [Ti _].
        rewrite (vget_ok _ _ _ Ti). cbn [mbind res_bind].
        destruct (set_ok e op t _ I i x) as (t' & -> & I'); [rewrite (inv_n _ _ _ _ I), vals_length; exact Hin|]. cbn [mbind res_bind].
        eexists _, _, _. split; [reflexivity|]. split; [reflexivity|]. split; [rewrite insert_length; exact Hw|]. rewrite <- (vals_insert w i v x Hw Ho). exact I'.
      - destruct (w !! v) as [x|] eqn:Ev; [right|left; apply lookup_ge_None in Ev; rewrite (vget_panic (bl_tin b)) by (rewrite (to_in _ _ _ _ T); lia); auto].
        pose proof (lookup_lt_Some _ _ _ Ev) as Hv. destruct (tour_at _ _ _ _ T v ltac:(lia)) as (i & k & Hi & Ho & Hin). destruct (to_times _ _ _ _ T i v k Hi) as [Ti _].
        rewrite (vget_ok _ _ _ Ti). cbn [mbind res_bind]. rewrite (get_ok e op t _ I i), (vals_at w i v Ho), Ev. cbn [mbind res_bind default].
        eexists _, _, _. split; [reflexivity|]. auto.
      - destruct (Nat.ltb_spec u (length w)) as [Hv|Hv]; [right|left; rewrite (vget_panic (bl_tin b)) by (rewrite (to_in _ _ _ _ T); lia); auto].
        destruct (tour_at _ _ _ _ T u ltac:(lia)) as (i & k & Hi & Ho & Hin). destruct (to_times _ _ _ _ T i u k Hi) as [Ti To].
        destruct (to_block _ _ _ _ T i u k Hi) as [Hk _].
        rewrite (vget_ok _ _ _ Ti). cbn [mbind res_bind]. rewrite (vget_ok _ _ _ To). cbn [mbind res_bind].
        rewrite (prod_ok e op L t _ I i (i + k)) by (rewrite (inv_n _ _ _ _ I), vals_length; lia). cbn [mbind res_bind].
        rewrite vals_slice. exists t, w, (Some (mprod e op (vals e w (slice ord i (i + k))))). split; [reflexivity|]. split; [|auto]. unfold sub_at. rewrite Ti, To. reflexivity. }
    - reflexivity.
    - cbn [mbind res_bind]. specialize (IH t' w' Hw' I').
      destruct (run (sub_step e op b) t' ops) as [[t2 o2]| |], (run (sub_spec_step e op (sub_at b l)) w' ops) as [[w2 o3]| |]; cbn in *; congruence.
  Qed.
End Client.

(** Subtree products with a Segtree over the order: any history of updates and queries through tin and tout answers, and panics,
    as values kept by vertex; a product multiplies the values of the subtree in the visiting order. *)
Theorem C106_segtree : forall {S} (e : S) (op : S -> S -> S), monoid_laws e op ->
  forall g root (w : list S), is_tree g -> root < length g -> (Z.of_nat (length g) < 2 ^ 32)%Z -> length w = length g ->
  exists b l sub, bl_from g root = Ok b /\ preorder g root root l /\
    (forall u, u < length g -> sublist (sub u) l.*1 /\ NoDup (sub u) /\ forall x, x ∈ sub u <-> x < length g /\ ancestor g root u x) /\
    forall ops, fmap snd (t ← sub_from e op b w; run (sub_step e op b) t ops) = fmap snd (run (sub_spec_step e op sub) w ops).
Proof.
  intros S e op L g root w T Hr Hn Hw. destruct (from_tour g root T Hr) as (b & l & E & O); [lia|].
  exists b, l, (sub_at b l). split; [exact E|]. split; [apply O|]. split.
  - intros u Hu. split; [apply slice_sublist|]. split; [eapply sublist_NoDup_ord; [apply slice_sublist|eapply tour_nodup; eauto]|apply (sub_at_elem _ _ _ _ O u Hu)].
  - intros ops. destruct (sub_from_ok e op g root b l O w Hw Hn) as (t & -> & I). cbn [mbind res_bind].
    apply (sub_refines e op L g root b l O ops t w Hw I).
Qed.
Print Assumptions C106_segtree.

Example C106_nonvacuous :
  let g := [[1; 2]; [0; 3; 4]; [0]; [1]; [1]] in
  exists b, bl_from g 0 = Ok b /\ bl_tin b = [0; 1; 4; 2; 3] /\ bl_tout b = [5; 4; 5; 3; 4] /\
    fmap snd (t ← sub_from 0 Nat.add b [1; 10; 100; 1000; 10000]; run (sub_step 0 Nat.add b) t [SubProd 1; SubSet 3 5; SubProd 1; SubProd 0; SubGet 2])
      = Ok [Some 11010; None; Some 10015; Some 10116; Some 100].
Proof. eexists. split; [vm_compute; reflexivity|]. split; [vm_compute; reflexivity|]. split; [vm_compute; reflexivity|]. vm_compute. reflexivity. Qed.
