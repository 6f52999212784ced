(** Paths of a tree: membership by distances, and the split at the lowest common ancestor. *)
From Verif Require Import Prelude ArraySpec TreeSpec TreeProof HldSpec HldProof.

(** *** Paths and distances *)
Lemma walk_short g u v l : walk g u v l -> exists l', walk g u v l' /\ NoDup l' /\ length l' <= length l /\ (length l' = length l -> l' = l).
Proof.
  induction 1 as [u|u w v l He Hw (l' & H1 & H2 & H3 & H4)].
  - exists [u]. split; [constructor|]. split; [apply NoDup_singleton|]. auto.
  - destruct (decide (u ∈ l')) as [Hin|Hin].
    + destruct (walk_split g w v u l' H1 Hin) as (l1 & l2 & -> & _ & W). exists (u :: l2). split; [exact W|].
      apply NoDup_app in H2 as (_ & _ & H2). split; [exact H2|]. rewrite app_length in H3. cbn [length] in *. split; [lia|]. intros E. exfalso. lia.
    + exists (u :: l'). split; [econstructor; eauto|]. split; [apply NoDup_cons; auto|]. cbn [length]. split; [lia|]. intros E. rewrite H4 by lia. reflexivity.
Qed.

Lemma short_path g u v l d : walk g u v l -> length l = S d -> is_dist g u v d -> is_path g u v l.
Proof.
  intros W Hl [_ Hmin]. split; [exact W|]. destruct (walk_short g u v l W) as (l' & W' & N & Le & Eq). pose proof (Hmin l' W') as M.
  rewrite <- Eq by lia. exact N.
Qed.
Lemma path_length g u v p d : is_tree g -> is_path g u v p -> is_dist g u v d -> length p = S d.
Proof.
  intros T [W N] D. pose proof D as [(l & Wl & Hl) _]. destruct (short_path g u v l d Wl Hl D) as [_ Nl].
  rewrite (tree_unique _ T u v p l W N Wl Nl). exact Hl.
Qed.
(** The path visits the vertices without detour. *)
Lemma path_member g u v c p d d1 d2 : is_tree g -> is_path g u v p -> is_dist g u v d -> is_dist g u c d1 -> is_dist g c v d2 ->
  c ∈ p <-> d1 + d2 = d.
Proof.
  intros T P D D1 D2. pose proof (path_length _ _ _ _ _ T P D) as Hp. pose proof P as [W N]. pose proof D1 as [(l1 & W1 & H1) M1]. pose proof D2 as [(l2 & W2 & H2) M2].
  pose proof (walk_app g u c v l1 l2 W1 W2) as W12. assert (length (l1 ++ tail l2) = S (d1 + d2)) as Hl.
  { rewrite app_length. destruct l2 as [|x l2]; [discriminate|]. cbn [tail length] in *. lia. }
  split.
  - intros Hc. destruct (walk_split g u v c p W Hc) as (q1 & q2 & -> & Q1 & Q2). apply M1 in Q1. apply M2 in Q2. rewrite app_length in *. cbn [length] in *.
    pose proof (proj2 D _ W12) as M. rewrite app_length in M. lia.
  - intros <-. destruct (short_path g u v _ _ W12 Hl D) as [_ N12]. rewrite (tree_unique _ T u v p _ W N W12 N12).
    apply elem_of_app. left. pose proof (walk_last g u c l1 W1) as La. apply last_Some in La as [l' ->]. apply elem_of_app. right. left.
Qed.

(** *** The split at the lowest common ancestor *)
Section Split.
  Context (g : list (list nat)) (root : nat) (par dep : nat -> nat) (Ht : rtree g root par dep).
  Notation n := (length g).
  Notation anc := (anc par).
  Notation seg := (seg par dep).

  Lemma path_perm u v p L : u < n -> v < n -> is_path g u v p -> pathp g u v L -> p ≡ₚ L.
  Proof. intros Hu Hv [W N] (l & [Wl Nl] & E). rewrite (walk_unique _ _ _ _ Ht u v p l W N Wl Nl). exact E. Qed.
  Lemma seg_nodup a b : b < n -> anc a b -> NoDup (seg a b).
  Proof. intros Hb A. eapply pathp_NoDup. eapply pathp_chain; eauto. Qed.
  Lemma seg_join a b c : c < n -> anc a b -> anc b c -> seg a c ++ [b] ≡ₚ seg a b ++ seg b c.
  Proof.
    intros Hc A B. assert (b < n) as Hb by (eapply anc_lt; [exact Ht| |exact B]; exact Hc).
    assert (b ∈ seg b c) as Hin by (eapply elem_seg; eauto; split; [apply anc_refl|exact B]).
    apply elem_of_Permutation in Hin as [r Hr]. rewrite Hr. pose proof (seg_nodup b c Hc B) as N. rewrite Hr in N. apply NoDup_cons in N as [Nb N].
    assert (seg a c ≡ₚ seg a b ++ r) as ->.
    { apply NoDup_Permutation; [apply seg_nodup; [exact Hc|eapply anc_trans; eauto]| |].
      - apply NoDup_app. split; [apply seg_nodup; auto|]. split; [|exact N]. intros x Hx Hxr. apply (elem_seg _ _ _ _ Ht a b x Hb A) in Hx as [_ X1].
        assert (x ∈ seg b c) as X2 by (rewrite Hr; right; exact Hxr). apply (elem_seg _ _ _ _ Ht b c x Hc B) in X2 as [X2 X3].
        assert (x < n) as Hx by (eapply anc_lt; [exact Ht| |exact X3]; exact Hc). rewrite (anc_antisym _ _ _ _ Ht x b Hx Hb X1 X2) in Hxr. contradiction.
      - intros x. rewrite elem_of_app, !(elem_seg _ _ _ _ Ht); auto; [|eapply anc_trans; eauto]. split.
        + intros [X1 X2]. destruct (anc_comparable _ x b c X2 B) as [X|X]; [left; auto|].
          destruct (decide (x = b)) as [->|Hne]; [left; split; [exact A|apply anc_refl]|]. right.
          assert (x ∈ b :: r) as Hx by (rewrite <- Hr; eapply elem_seg; eauto). apply elem_of_cons in Hx as [->|Hx]; [contradiction|exact Hx].
        + intros [[X1 X2]|Hx]; [split; [exact X1|eapply anc_trans; eauto]|].
          assert (x ∈ seg b c) as X2 by (rewrite Hr; right; exact Hx). apply (elem_seg _ _ _ _ Ht b c x Hc B) in X2 as [X2 X3]. split; [eapply anc_trans; eauto|exact X3]. }
    rewrite <- app_assoc. apply Permutation_app_head. symmetry. apply Permutation_cons_append.
  Qed.

  Lemma split_lca u v l p pu pv pl : u < n -> v < n -> lcap par u v l ->
    is_path g u v p -> is_path g root u pu -> is_path g root v pv -> is_path g root l pl ->
    p ++ pl ++ pl ≡ₚ pu ++ pv ++ [l].
  Proof.
    intros Hu Hv (Al & Bl & Low) P Pu Pv Pl. pose proof (t_root _ _ _ _ Ht) as Hr.
    assert (l < n) as Hl by (eapply anc_lt; [exact Ht| |exact Al]; exact Hu).
    assert (forall x px, x < n -> is_path g root x px -> px ≡ₚ seg root x) as Q.
    { intros x px Hx Px. apply (path_perm root x px _ Hr Hx Px). apply (pathp_chain _ _ _ _ Ht root x Hx). apply (anc_root _ _ _ _ Ht). exact Hx. }
    rewrite (Q u pu Hu Pu), (Q v pv Hv Pv), (Q l pl Hl Pl).
    pose proof (seg_join root l v Hv (anc_root _ _ _ _ Ht l Hl) Bl) as Jv.
    assert (seg root u ≡ₚ seg root l /\ p ≡ₚ seg l v \/ exists q, seg root u ≡ₚ seg root l ++ q /\ p ≡ₚ q ++ seg l v) as [[E1 E2]|(q & E1 & E2)].
    { destruct (decide (u = l)) as [->|Hne].
      - left. split; [reflexivity|]. apply (path_perm l v p _ Hl Hv P). apply (pathp_chain _ _ _ _ Ht l v Hv Bl).
      - right. destruct (anc_bound _ _ _ _ Ht l u Hu Al) as (k & K1 & K2 & K3). destruct k as [|k]; [contradiction|].
        set (a := up par k u). assert (par a = l) as Ha by exact K2. assert (anc a u) as Aa by apply anc_up.
        assert (a < n) as Han by (eapply anc_lt; [exact Ht| |exact Aa]; exact Hu).
        assert (a <> root) as Har.
        { intros E. pose proof (dep_up _ _ _ _ Ht k u Hu) as D. fold a in D. rewrite E, (t_root_dep _ _ _ _ Ht) in D. lia. }
        assert (~ anc a v) as Hav.
        { intros X. pose proof (Low a Aa X) as X2. rewrite <- Ha in X2. exact (anc_par_not _ _ _ _ Ht a Han Har X2). }
        exists (seg a u). split.
        + pose proof (seg_join root a u Hu (anc_root _ _ _ _ Ht a Han) Aa) as J.
          assert (seg root a ≡ₚ seg root l ++ [a]) as J2.
          { pose proof (seg_join root l a Han (anc_root _ _ _ _ Ht l Hl) ltac:(rewrite <- Ha; apply anc_par)) as J2.
            assert (seg l a = [l; a]) as E.
            { unfold HldProof.seg. assert (dep a - dep l = 1) as ->.
              { pose proof (dep_up _ _ _ _ Ht k u Hu) as D. fold a in D. lia. }
              cbn [seq map rev app]. change (up par 1 a) with (par a). rewrite Ha. reflexivity. }
            rewrite E in J2. apply (Permutation_app_inv_r [l]). rewrite J2. rewrite <- app_assoc. apply Permutation_app_head. apply Permutation_swap. }
          rewrite J2 in J. apply (Permutation_app_inv_r [a]). rewrite J. rewrite <- !app_assoc. apply Permutation_app_head. apply Permutation_app_comm.
        + apply (path_perm u v p _ Hu Hv P). apply (pathp_climb _ _ _ _ Ht u a v _ Hu Hv Aa Hav). rewrite Ha. apply (pathp_chain _ _ _ _ Ht l v Hv Bl). }
    - rewrite E1, E2, Jv. rewrite (Permutation_app_comm (seg l v)). rewrite <- app_assoc. reflexivity.
    - rewrite E1, E2, Jv. rewrite <- !app_assoc. rewrite (Permutation_app_comm q). rewrite <- !app_assoc.
      rewrite (Permutation_app_comm (seg l v)). rewrite <- !app_assoc. apply Permutation_app_head.
      rewrite !app_assoc. rewrite (Permutation_app_comm (seg root l) q). reflexivity.
  Qed.
End Split.
