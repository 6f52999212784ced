(** Shortest walks in a weighted tree are its paths. *)
From Verif Require Import Prelude ArraySpec TreeSpec TreeProof HldSpec TreeAgreeProof FieldSpec FieldProof WeightedSpec.
From Verif Require DijkstraSpec.

Lemma weighted_lookup g c u es : weighted g c !! u = Some es <-> exists l, g !! u = Some l /\ es = map (fun v => (v, Z.of_nat (c u v))) l.
Proof.
  unfold weighted. rewrite list_lookup_imap. destruct (g !! u) as [l|]; cbn; [|split; [discriminate|intros (? & ? & _); discriminate]].
  split; [intros [= <-]; eauto|intros (l' & [= <-] & ->); reflexivity].
Qed.
Lemma weighted_length g c : length (weighted g c) = length g.
Proof. apply imap_length. Qed.
Lemma weighted_edge g c u v x : (exists es, weighted g c !! u = Some es /\ (v, x) ∈ es) <-> edge g u v /\ x = Z.of_nat (c u v).
Proof.
  split.
  - intros (es & Hu & Hv). apply weighted_lookup in Hu as (l & Hl & ->). apply elem_of_list_fmap in Hv as (w & [= -> ->] & Hw). split; [exists l; auto|reflexivity].
  - intros [(l & Hl & Hv) ->]. eexists. split; [apply weighted_lookup; eauto|]. apply elem_of_list_fmap. eauto.
Qed.
Lemma weighted_nonneg g c : DijkstraSpec.nonneg (weighted g c).
Proof. intros u es v x Hu Hv. destruct (proj1 (weighted_edge g c u v x)) as [_ ->]; [eauto|lia]. Qed.

Lemma walk_snoc_edge g u v w l : walk g u v l -> edge g v w -> walk g u w (l ++ [w]).
Proof. induction 1 as [u|u x v l He Hw IH]; intros E; [cbn; econstructor; [exact E|constructor]|]. cbn. econstructor; [exact He|auto]. Qed.

Lemma weighted_walk g c s v w : DijkstraSpec.walk (weighted g c) s v w <-> exists l, walk g s v l /\ w = Z.of_nat (wlen c l).
Proof.
  split.
  - induction 1 as [|u w es v x W (l & Hl & ->) Hu Hv]; [exists [s]; split; [constructor|reflexivity]|].
    destruct (proj1 (weighted_edge g c u v x)) as [He ->]; [eauto|]. exists (l ++ [v]). split; [eapply walk_snoc_edge; eauto|].
    apply walk_last, last_Some in Hl as [l' ->]. rewrite <- app_assoc. cbn [app]. rewrite (wlen_app c l' u [v]). cbn [wlen]. lia.
  - intros (l & Hl & ->). assert (forall u w0, DijkstraSpec.walk (weighted g c) s u w0 -> walk g u v l -> DijkstraSpec.walk (weighted g c) s v (w0 + Z.of_nat (wlen c l))) as H.
    { clear Hl. intros u w0 W Hl. revert w0 W. induction Hl as [u|u x v l He Hl IH]; intros w0 W; [cbn; rewrite Z.add_0_r; exact W|].
      destruct (proj2 (weighted_edge g c u x (Z.of_nat (c u x)))) as (es & Hes & Hx); [auto|]. destruct (walk_head_eq g x v l Hl) as [l' ->]. rewrite wlen_cons2, Nat2Z.inj_add, Z.add_assoc.
      apply IH. econstructor; eauto. }
    apply (H s 0%Z); [constructor|exact Hl].
Qed.

(** Cutting loops does not make a walk longer. *)
Lemma walk_cut c g u v l : walk g u v l -> exists l', walk g u v l' /\ NoDup l' /\ wlen c l' <= wlen c l.
Proof.
  induction 1 as [u|u w v l He Hw (l' & H1 & H2 & H3)]; [exists [u]; split; [constructor|]; split; [apply NoDup_singleton|lia]|].
  destruct (walk_head_eq g w v l Hw) as [k ->]. rewrite wlen_cons2. destruct (decide (u ∈ l')) as [Hin|Hin].
  - destruct (walk_split g w v u l' H1 Hin) as (l1 & l2 & -> & _ & W). exists (u :: l2). split; [exact W|].
    apply NoDup_app in H2 as (_ & _ & H2). split; [exact H2|]. rewrite wlen_app in H3. lia.
  - destruct (walk_head_eq g w v l' H1) as [k' ->]. exists (u :: w :: k'). split; [econstructor; eauto|]. split; [apply NoDup_cons; auto|]. rewrite wlen_cons2. lia.
Qed.

Lemma tree_shortest c g u v p : is_tree g -> is_path g u v p -> forall d, DijkstraSpec.shortest (weighted g c) u v d <-> d = Z.of_nat (wlen c p).
Proof.
  intros T [W N]. assert (DijkstraSpec.shortest (weighted g c) u v (Z.of_nat (wlen c p))) as H.
  { split; [apply weighted_walk; eauto|]. intros w Hw. apply weighted_walk in Hw as (l & Hl & ->). destruct (walk_cut c g u v l Hl) as (l' & W' & N' & Le).
    rewrite (tree_unique _ T u v p l' W N W' N'). lia. }
  intros d. split; [|intros ->; exact H]. intros [H1 H2]. destruct H as [H3 H4]. specialize (H2 _ H3). specialize (H4 _ H1). lia.
Qed.
Lemma wlen_unit l : wlen (fun _ _ => 1) l = length l - 1.
Proof. induction l as [|u l IH]; [reflexivity|]. destruct l as [|v l]; [reflexivity|]. rewrite wlen_cons2, IH. cbn [length]. lia. Qed.
