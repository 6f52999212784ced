(** HLD and BinaryLifting over the same tree give answers that fit together (C107). *)
From Verif Require Import Prelude ArraySpec LazySpec TreeSpec TreeProof HldSpec HldModel HldProof HldOps HldProps LiftModel LiftProps
  SegtreeModel EulerSpec EulerModel EulerProof EulerProps TreeAgreeProof.

Section Calls.
  Context {S F : Type} (e : S) (op : S -> S -> S) (idm : F) (mapping : F -> S -> S) (comp : F -> F -> F).
  Context (L : monoid_laws e op) (ML : map_laws op idm mapping comp) (C : forall x y, op x y = op y x).
  Context (g : list (list nat)) (root : nat) (T : is_tree g) (Hr : root < length g) (Hn : (Z.of_nat (length g) < 2 ^ 32)%Z).
  Notation n := (length g).

  (** The calls on a structure whose vertices hold w. *)
  Lemma built_calls z w ord : built e op idm mapping g root z w ord -> length w = n /\
    (forall u v l, u < n -> v < n -> is_path g u v l -> snd <$> path_prod e op idm mapping comp z u v = Ok (mprod e op (vals e w l))) /\
    (forall c, c < n -> snd <$> hld_get idm mapping comp z c = Ok (default e (w !! c))) /\
    (forall u l, u < n -> NoDup l -> (forall x, x ∈ l <-> x < n /\ ancestor g root u x) ->
       snd <$> subtree_prod e op idm mapping comp z u = Ok (mprod e op (vals e w l))).
  Proof.
    intros B. assert (visiting_order g root ord /\ places ord (h_pos (hd_tree z))) as [[Vp _] _] by (eapply built_ord; eauto).
    pose proof B as (par & dep & hv & pos & posr & h & R & D & Hord & Hi).
    pose proof (step_ok e op idm mapping comp L ML g root par dep R h hv pos posr D ord Hord z w) as St.
    assert (length w = n) as Hw by (destruct Hi as [_ (a & _ & _ & ->)]; apply wof_length). split; [exact Hw|]. split; [|split].
    - intros u v l Hu Hv P. specialize (St (HPathProd u v) Hi). cbn [hld_step hld_allowed] in St.
      apply Nat.ltb_lt in Hu, Hv. rewrite Hu, Hv in St. cbn [andb] in St.
      destruct (path_prod e op idm mapping comp z u v) as [[z' r]| |]; cbn [mbind res_bind] in St; [|destruct St as (? & ? & _ & _ & ?); discriminate|contradiction].
      destruct St as (w' & (l1 & l2 & P1 & [P2 _] & E) & _). injection E as -> ->. cbn. f_equal. apply (mprod_perm e op L C). unfold vals. apply Permutation_map.
      destruct P as [Pw Pn], P1 as [Pw1 Pn1]. rewrite P2. rewrite (tree_unique _ T u v l l1 Pw Pn Pw1 Pn1). reflexivity.
    - intros c Hc. specialize (St (HGet c) Hi). cbn [hld_step hld_allowed] in St. destruct (lookup_lt_is_Some_2 w c) as [x Hx]; [lia|]. rewrite Hx in *.
      destruct (hld_get idm mapping comp z c) as [[z' r]| |]; cbn [mbind res_bind] in St; [|discriminate|contradiction]. destruct St as (w' & E & _). injection E as _ ->. reflexivity.
    - intros u l Hu N I. specialize (St (HSubtreeProd u) Hi). cbn [hld_step hld_allowed] in St. apply Nat.ltb_lt in Hu. rewrite Hu in St.
      destruct (subtree_prod e op idm mapping comp z u) as [[z' r]| |]; cbn [mbind res_bind] in St; [|destruct St as (? & _ & _ & ?); discriminate|contradiction].
      destruct St as (w' & (l' & Sl & I' & E) & _). injection E as -> ->. cbn. f_equal. apply (mprod_perm e op L C). unfold vals. apply Permutation_map.
      apply NoDup_Permutation; [|exact N|intros x; rewrite I, I'; reflexivity]. eapply sublist_NoDup_ord; [exact Sl|]. rewrite Vp. apply NoDup_seq.
  Qed.
End Calls.

Lemma vals_app {S} (e : S) w l l' : vals e w (l ++ l') = vals e w l ++ vals e w l'.
Proof. apply map_app. Qed.

(** Path products split at the lowest common ancestor: after any history of the HLD (rooted anywhere), with l = lca(u, v) of a
    BinaryLifting rooted at r and P the path products,  P(u, v) P(r, l) P(r, l) = P(r, u) P(r, v) get(l),  for every commutative monoid. *)
Theorem C107_lca_split : forall {S F : Type} (e : S) (op : S -> S -> S) (idm : F) (mapping : F -> S -> S) (comp : F -> F -> F),
  monoid_laws e op -> map_laws op idm mapping comp -> (forall x y, op x y = op y x) ->
  forall g root w x, hld_built e op idm g root w x ->
  forall ops y z outs, x = Ok y -> run (hld_step e op idm mapping comp) y ops = Ok (z, outs) ->
  forall r, r < length g -> exists b, bl_from g r = Ok b /\
  forall u v, u < length g -> v < length g ->
  exists l puv pu pv pl wl, bl_lca b u v = Ok l /\
    snd <$> path_prod e op idm mapping comp z u v = Ok puv /\ snd <$> path_prod e op idm mapping comp z r u = Ok pu /\
    snd <$> path_prod e op idm mapping comp z r v = Ok pv /\ snd <$> path_prod e op idm mapping comp z r l = Ok pl /\
    snd <$> hld_get idm mapping comp z l = Ok wl /\
    op puv (op pl pl) = op pu (op pv wl).
Proof.
  intros S F e op idm mapping comp L ML C g root w x H ops y z outs -> Hrun r Hr.
  destruct (hld_built_ok e op idm mapping comp g root w _ L ML H) as (y' & ord & [= <-] & B). pose proof H as (T & Hrt & Hn & _).
  destruct (built_reach e op idm mapping comp L ML g root ops y w ord z outs B Hrun) as (w1 & B1).
  destruct (built_calls e op idm mapping comp L ML C g root T Hrt z w1 ord B1) as (Hw1 & HP & HG & _).
  destruct (C21_lca g r T Hr ltac:(lia)) as (b & Eb & Hl). exists b. split; [exact Eb|]. intros u v Hu Hv. destruct (Hl u v Hu Hv) as (l & El & Hln & IL).
  destruct (tree_rtree g T r Hr) as (par & dep & R). apply (is_lca_iff _ _ _ _ R u v l Hu Hv Hln) in IL.
  destruct (tree_path _ T u v Hu Hv) as (p & P). destruct (tree_path _ T r u Hr Hu) as (pu & Pu). destruct (tree_path _ T r v Hr Hv) as (pv & Pv).
  destruct (tree_path _ T r l Hr Hln) as (pl & Pl). pose proof (split_lca g r par dep R u v l p pu pv pl Hu Hv IL P Pu Pv Pl) as E.
  eexists l, _, _, _, _, _. split; [exact El|]. split; [apply (HP u v p Hu Hv P)|]. split; [apply (HP r u pu Hr Hu Pu)|]. split; [apply (HP r v pv Hr Hv Pv)|].
  split; [apply (HP r l pl Hr Hln Pl)|]. split; [apply (HG l Hln)|].
  apply (Permutation_map (fun x => default e (w1 !! x))) in E. apply (mprod_perm e op L C) in E. rewrite !map_app in E. rewrite !(mprod_app e op L) in E.
  cbn [map] in E. rewrite (mprod_single e op L) in E. exact E.
Qed.
Print Assumptions C107_lca_split.

(** apply_path(u, v, f) maps exactly the vertices c with dis(u, c) + dis(c, v) = dis(u, v), the BinaryLifting being rooted anywhere. *)
Theorem C107_members : forall {S F : Type} (e : S) (op : S -> S -> S) (idm : F) (mapping : F -> S -> S) (comp : F -> F -> F),
  monoid_laws e op -> map_laws op idm mapping comp ->
  forall g root w x, hld_built e op idm g root w x ->
  forall ops y z outs, x = Ok y -> run (hld_step e op idm mapping comp) y ops = Ok (z, outs) ->
  forall r, r < length g -> exists b, bl_from g r = Ok b /\
  forall u v f c, u < length g -> v < length g -> c < length g ->
  exists z' old new duv duc dcv, apply_path op idm mapping comp z u v f = Ok z' /\
    snd <$> hld_get idm mapping comp z c = Ok old /\ snd <$> hld_get idm mapping comp z' c = Ok new /\
    bl_dis b u v = Ok duv /\ bl_dis b u c = Ok duc /\ bl_dis b c v = Ok dcv /\
    new = if decide (duc + dcv = duv) then mapping f old else old.
Proof.
  intros S F e op idm mapping comp L ML g root w x H ops y z outs Hx Hrun r Hr. pose proof H as (T & _ & Hn & _).
  destruct (C22_dis g r T Hr ltac:(lia)) as (b & Eb & Hd). exists b. split; [exact Eb|]. intros u v f c Hu Hv Hc.
  destruct (tree_path _ T u v Hu Hv) as (p & P).
  destruct (C29_apply_path e op idm mapping comp L ML g root w x H ops y z outs Hx Hrun u v f p c Hu Hv P Hc) as (z' & t & old & new & t' & E1 & E2 & E3 & E4).
  destruct (Hd u v Hu Hv) as (duv & D1 & D2). destruct (Hd u c Hu Hc) as (duc & D3 & D4). destruct (Hd c v Hc Hv) as (dcv & D5 & D6).
  exists z', old, new, duv, duc, dcv. rewrite E1, E2, E3. split; [reflexivity|]. split; [reflexivity|]. split; [reflexivity|]. split; [exact D1|]. split; [exact D3|]. split; [exact D5|].
  rewrite E4. pose proof (path_member g u v c p duv duc dcv T P D2 D4 D6) as M. destruct (decide (c ∈ p)), (decide (duc + dcv = duv)); tauto.
Qed.
Print Assumptions C107_members.

(** Counting vertices: with all values 1 under addition path_prod(u, v) = dis(u, v) + 1 and subtree_prod(u) = tout[u] - tin[u]. *)
Theorem C107_counts : forall {F : Type} (idm : F) (mapping : F -> nat -> nat) (comp : F -> F -> F), map_laws Nat.add idm mapping comp ->
  forall g root, is_tree g -> root < length g -> (Z.of_nat (length g) < 2 ^ 32)%Z ->
  exists y b, hld_with_init 0 Nat.add idm g root (replicate (length g) 1) = Ok y /\ bl_from g root = Ok b /\
  (forall u v, u < length g -> v < length g -> exists d, bl_dis b u v = Ok d /\ snd <$> path_prod 0 Nat.add idm mapping comp y u v = Ok (d + 1)) /\
  (forall u, u < length g -> exists i o, bl_tin b !! u = Some i /\ bl_tout b !! u = Some o /\ snd <$> subtree_prod 0 Nat.add idm mapping comp y u = Ok (o - i)).
Proof.
  intros F idm mapping comp ML g root T Hr Hn. assert (monoid_laws 0 Nat.add) as L by (split; intros; lia).
  destruct (with_init_built 0 Nat.add idm mapping comp L ML g root T Hr Hn (replicate (length g) 1)) as (y & ord & Ey & B); [apply replicate_length|].
  destruct (built_calls 0 Nat.add idm mapping comp L ML Nat.add_comm g root T Hr y _ ord B) as (_ & HP & _ & HS).
  destruct (C106_euler g root T Hr ltac:(lia)) as (b & l & Eb & _ & [Vp _] & _ & _ & Ht).
  destruct (C22_dis g root T Hr ltac:(lia)) as (b' & Eb' & Hd). assert (b' = b) as -> by congruence.
  assert (forall l, (forall x, x ∈ l -> x < length g) -> mprod 0 Nat.add (vals 0 (replicate (length g) 1) l) = length l) as Len.
  { clear. induction l as [|x l IH]; intros H; [reflexivity|]. unfold vals, mprod in *. cbn [map foldr length]. rewrite IH by (intros y Hy; apply H; right; exact Hy).
    rewrite lookup_replicate_2 by (apply H; left). reflexivity. }
  exists y, b. split; [exact Ey|]. split; [exact Eb|]. split.
  - intros u v Hu Hv. destruct (Hd u v Hu Hv) as (d & D1 & D2). exists d. split; [exact D1|]. destruct (tree_path _ T u v Hu Hv) as (p & P). rewrite (HP u v p Hu Hv P).
    rewrite Len; [rewrite (path_length g u v p d T P D2); f_equal; lia|]. intros x Hx. destruct P as [W _]. destruct (walk_split g u v x p W Hx) as (l1 & l2 & _ & W1 & _).
    destruct (tree_rtree g T root Hr) as (par & dep & R). eapply walk_lt; eauto.
  - intros u Hu. assert (u ∈ l.*1) as Hin by (rewrite Vp, elem_of_seq; lia). apply elem_of_list_fmap in Hin as ([u' k] & -> & Hin). apply elem_of_list_lookup in Hin as [i Hi].
    destruct (Ht i u' k Hi) as (E1 & E2 & N & Ln & I). exists i, (i + k). split; [exact E1|]. split; [exact E2|]. cbn [fst] in *. rewrite (HS u' _ Hu N I).
    rewrite Len; [rewrite Ln; f_equal; lia|]. intros x Hx. apply I in Hx. tauto.
Qed.
Print Assumptions C107_counts.

(** HLD's set, get and subtree_prod as calls of the client over the order tin. *)
Definition sub_to_hld {S F} (o : sub_op S) : hld_op S F := match o with SubSet v x => HSet v x | SubGet v => HGet v | SubProd u => HSubtreeProd u end.
Definition out_to_hld {S} (o : option S) : hld_out S := match o with None => HUnit | Some x => HVal x end.

(** Any history of set, get and subtree_prod: HLD and a Segtree over the order of BinaryLifting give the same answers and panics,
    for every commutative monoid. *)
Theorem C107_subtrees : forall {S F : Type} (e : S) (op : S -> S -> S) (idm : F) (mapping : F -> S -> S) (comp : F -> F -> F),
  monoid_laws e op -> map_laws op idm mapping comp -> (forall x y, op x y = op y x) ->
  forall g root w x, hld_built e op idm g root w x -> exists y b, x = Ok y /\ bl_from g root = Ok b /\
  forall ops, snd <$> run (hld_step e op idm mapping comp) y (map sub_to_hld ops) =
    (fun r => map out_to_hld (snd r)) <$> (t ← sub_from e op b w; run (sub_step e op b) t ops).
Proof.
  intros S F e op idm mapping comp L ML C g root w x H.
  destruct (hld_built_ok e op idm mapping comp g root w _ L ML H) as (y & ord & -> & B). pose proof H as (T & Hr & Hn & _).
  assert (length w = length g) as Hw by (apply (built_calls e op idm mapping comp L ML C g root T Hr y w ord B)).
  destruct (C106_segtree e op L g root w T Hr Hn Hw) as (b & l & sub & Eb & _ & Hsub & Hrun). exists y, b. split; [reflexivity|]. split; [exact Eb|].
  intros ops. assert ((fun r => map out_to_hld (snd r)) <$> (t ← sub_from e op b w; run (sub_step e op b) t ops) = (map out_to_hld) <$> (snd <$> run (sub_spec_step e op sub) w ops)) as ->.
  { rewrite <- Hrun. destruct (t ← sub_from e op b w; run (sub_step e op b) t ops) as [[? ?]| |]; reflexivity. }
  clear Hrun Eb b H. revert y w B Hw. induction ops as [|o ops IH]; intros y w B Hw; [reflexivity|]. cbn [map run].
  pose proof (built_calls e op idm mapping comp L ML C g root T Hr y w ord B) as (_ & _ & HG & HS).
  pose proof B as (par & dep & hv & pos & posr & h & R & D & Hord & Hi).
  pose proof (step_ok e op idm mapping comp L ML g root par dep R h hv pos posr D ord Hord y w (sub_to_hld o) Hi) as St.
  assert ((hld_step e op idm mapping comp y (sub_to_hld o) = Panic /\ sub_spec_step e op sub w o = Panic) \/
    exists y' w' out, hld_step e op idm mapping comp y (sub_to_hld o) = Ok (y', out_to_hld out) /\ sub_spec_step e op sub w o = Ok (w', out) /\
      built e op idm mapping g root y' w' ord /\ length w' = length g) as [[-> ->]|(y' & w' & out & -> & -> & B' & Hw')].
  { destruct o as [v a|v|u]; cbn [sub_to_hld sub_spec_step hld_allowed hld_step] in *; rewrite ?Hw.
    - destruct (v <? length g).
      + right. destruct (hld_set _ _ _ _ _ _ _) as [y'| |]; cbn [mbind res_bind] in *; [|discriminate|contradiction].
        destruct St as (w' & [= ->] & Hi'). exists y', (<[v:=a]> w), None. split; [reflexivity|]. split; [reflexivity|]. split; [|rewrite insert_length; exact Hw]. exists par, dep, hv, pos, posr, h. auto.
      + left. destruct (hld_set _ _ _ _ _ _ _) as [y'| |]; cbn [mbind res_bind] in *; [destruct St as (w' & E & _); discriminate|auto|contradiction].
    - destruct (w !! v) as [a|].
      + right. destruct (hld_get _ _ _ _ _) as [[y' r]| |]; cbn [mbind res_bind] in *; [|discriminate|contradiction].
        destruct St as (w' & [= -> ->] & Hi'). exists y', w, (Some a). split; [reflexivity|]. split; [reflexivity|]. split; [|exact Hw]. exists par, dep, hv, pos, posr, h. auto.
      + left. destruct (hld_get _ _ _ _ _) as [[y' r]| |]; cbn [mbind res_bind] in *; [destruct St as (w' & E & _); discriminate|auto|contradiction].
    - destruct (Nat.ltb_spec u (length g)) as [Hu|Hu].
      + right. destruct (Hsub u Hu) as (_ & N & I). specialize (HS u (sub u) Hu N I).
        destruct (subtree_prod _ _ _ _ _ _ _) as [[y' r]| |]; cbn [mbind res_bind] in *; [|discriminate|contradiction]. cbn in HS. injection HS as ->.
        destruct St as (w' & (l' & _ & _ & E) & Hi'). injection E as -> _. exists y', w, (Some (mprod e op (vals e w (sub u)))). split; [reflexivity|]. split; [reflexivity|].
        split; [|exact Hw]. exists par, dep, hv, pos, posr, h. auto.
      + left. destruct (subtree_prod _ _ _ _ _ _ _) as [[y' r]| |]; cbn [mbind res_bind] in *; [destruct St as (w' & E & _); discriminate|auto|contradiction]. }
  - reflexivity.
  - cbn [mbind res_bind]. specialize (IH y' w' B' Hw').
    destruct (run (hld_step e op idm mapping comp) y' (map sub_to_hld ops)) as [[y2 o2]| |], (run (sub_spec_step e op sub) w' ops) as [[w2 o3]| |]; cbn in *; try congruence.
Qed.
Print Assumptions C107_subtrees.

(** The laws for a mapping by unit, and the calls on a tree with 7 vertices. *)
Example C107_nonvacuous :
  map_laws Nat.add tt (fun _ x => x) (fun _ _ => tt) /\ is_tree ex_tree /\
  exists y b, hld_with_init (F := unit) 0 Nat.add tt ex_tree 3 [1; 2; 4; 8; 16; 32; 64] = Ok y /\ bl_from ex_tree 3 = Ok b /\
    snd <$> run (hld_step 0 Nat.add tt (fun _ x => x) (fun _ _ => tt)) y [HSubtreeProd 4; HSet 5 7; HSubtreeProd 4; HPathProd 6 1; HGet 7] = Panic /\
    snd <$> run (hld_step 0 Nat.add tt (fun _ x => x) (fun _ _ => tt)) y [HSubtreeProd 4; HSet 5 7; HSubtreeProd 4; HPathProd 6 1] = Ok [HVal 112; HUnit; HVal 87; HVal 87] /\
    snd <$> (t ← sub_from 0 Nat.add b [1; 2; 4; 8; 16; 32; 64]; run (sub_step 0 Nat.add b) t [SubProd 4; SubSet 5 7; SubProd 4]) = Ok [Some 112; None; Some 87].
Proof.
  split; [split; auto|]. split; [apply ex_tree_ok|]. eexists _, _. split; [vm_compute; reflexivity|]. split; [vm_compute; reflexivity|].
  split; [vm_compute; reflexivity|]. split; [vm_compute; reflexivity|]. vm_compute. reflexivity.
Qed.
