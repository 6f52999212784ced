(** Property C71: binary lifting when the graph has vertices outside the tree of the root. *)
From Verif Require Import Prelude UtilModel UtilProof TreeSpec CompSpec LiftModel CompTree CompLift.

(** C71: it is enough that what can be reached from the root is a tree (so a tree on 1..n with an unused vertex 0 is fine): for
    the vertices there is_ancestor, lca and dis answer as on the tree alone, and dep is the distance from the root.  A vertex
    that cannot be reached is the ancestor of nothing, not even of itself; but is_ancestor calls the root, and only the root,
    its ancestor. *)
Theorem C71_component : forall g root, tree_at g root -> (Z.of_nat (length g) < 2 ^ 64)%Z ->
  exists b, bl_from g root = Ok b /\
  (forall u v, reached g root u -> reached g root v ->
     (exists r, bl_is_ancestor b u v = Ok r /\ (r = true <-> ancestor g root u v)) /\
     (exists l, bl_lca b u v = Ok l /\ reached g root l /\ is_lca g root u v l) /\
     (exists d, bl_dis b u v = Ok d /\ is_dist g u v d)) /\
  (forall v, reached g root v -> exists d, bl_dep b !! v = Some d /\ is_dist g root v d) /\
  (forall u v, u < length g -> v < length g -> ~ reached g root u -> bl_is_ancestor b u v = Ok false) /\
  (forall u v, reached g root u -> v < length g -> ~ reached g root v ->
     exists r, bl_is_ancestor b u v = Ok r /\ (r = true <-> u = root)).
Proof.
  intros g root T Hn. destruct (tree_ctree g root T) as (par & dep & Ht).
  destruct (from_ok g _ root par dep Ht Hn) as (b & E & B). set (lv := levels (length g)) in *. exists b.
  pose proof (levels_pos (length g)) as H1. pose proof (levels_pow (length g) ltac:(pose proof (ta_root _ _ T); lia)) as H2. split; [exact E|].
  destruct B as [[t' K] Out]. pose proof (k_wf _ _ _ _ _ _ _ _ _ _ K) as [W1 W2 W3 W4 W5 W6].
  split; [|split; [|split]].
  - intros u v Hu Hv. split; [|split].
    + destruct (is_anc_ok g _ root par dep Ht lv H1 H2 0 0 t' b K u v Hu Hv) as (r & E1 & E2).
      exists r. split; [exact E1|]. rewrite E2. symmetry. apply (ancestor_iff g _ root par dep Ht); assumption.
    + destruct (lca_ok g _ root par dep Ht lv H1 H2 0 0 t' b K u v Hu Hv) as (l & E1 & E2 & E3).
      exists l. split; [exact E1|]. split; [exact E2|]. apply (is_lca_iff g _ root par dep Ht); assumption.
    + exact (dis_ok g _ root par dep Ht lv H1 H2 0 0 t' b K u v Hu Hv).
  - intros v Hv. exists (dep v). split; [exact (k_dep _ _ _ _ _ _ _ _ _ _ K v Hv)|].
    pose proof (dist_ok g _ root par dep Ht root v root (root_reached g root) Hv) as Hd.
    rewrite (t_root_dep _ _ _ _ _ Ht), Nat.mul_0_r, Nat.sub_0_r in Hd. apply Hd.
    apply lcap_anc. apply (anc_root g _ root par dep Ht). exact Hv.
  - intros u v Hu Hv Hn'. destruct (Out u Hu Hn') as (_ & Tu & Ou).
    destruct (vget_lt (bl_tin b) v) as (tv & Ev & Lv); [lia|].
    unfold bl_is_ancestor. rewrite Ev. cbn [mbind res_bind]. rewrite (vget_ok _ _ _ Tu). cbn [mbind res_bind Nat.leb].
    rewrite (vget_ok _ _ _ Ou). reflexivity.
  - intros u v Hu Hv Hn'. destruct (Out v Hv Hn') as (_ & Tv & _). destruct (k_fin _ _ _ _ _ _ _ _ _ _ K u Hu) as (_ & _ & a & o & Ta & To & _ & Hao & _).
    unfold bl_is_ancestor. rewrite (vget_ok _ _ _ Tv). cbn [mbind res_bind]. rewrite (vget_ok _ _ _ Ta). cbn [mbind res_bind].
    pose proof (k_tin _ _ _ _ _ _ _ _ _ _ K) as Tr.
    destruct a as [|a]; cbn [Nat.leb].
    + rewrite (vget_ok _ _ _ To). cbn [mbind res_bind]. exists (0 <? o). split; [reflexivity|]. rewrite Nat.ltb_lt. split; [intros _|lia].
      pose proof (k_nest _ _ _ _ _ _ _ _ _ _ K u root Hu (root_reached g root) 0 o 0 Ta To Tr) as N.
      destruct (proj1 N ltac:(lia)) as [k Hk]. rewrite (up_root _ _ _ _ _ Ht) in Hk. congruence.
    + exists false. split; [reflexivity|]. split; [discriminate|]. intros ->. rewrite Tr in Ta. discriminate.
Qed.
Print Assumptions C71_component.

(** The path 1 - 2 - 3 with the branch 2 - 4, vertex 0 unused, rooted at 1. *)
Definition one_based : list (list nat) := [[]; [2]; [1; 3; 4]; [2]; [2]].
Example C71_nonvacuous : tree_at one_based 1 /\ ~ reached one_based 1 0 /\ reached one_based 1 4 /\
  (b ← bl_from one_based 1; bl_lca b 3 4) = Ok 2 /\ (b ← bl_from one_based 1; bl_dis b 1 4) = Ok 2 /\
  (b ← bl_from one_based 1; bl_is_ancestor b 1 0) = Ok true /\ (b ← bl_from one_based 1; bl_is_ancestor b 0 0) = Ok false.
Proof.
  set (par := fun v => match v with 0 => 0 | 1 => 1 | 2 => 1 | _ => 2 end).
  set (dep := fun v => match v with 0 => 0 | 1 => 0 | 2 => 1 | _ => 2 end).
  assert (ctree one_based (fun v => 1 <= v < 5) 1 par dep) as Ht.
  { split; cbn [one_based length].
    - lia.
    - lia.
    - reflexivity.
    - reflexivity.
    - intros v Hv Hne. do 5 (destruct v as [|v]; [cbn; lia|]). lia.
    - intros u es Hu Hes. do 5 (destruct u as [|u]; [injection Hes as <-; repeat constructor; rewrite ?elem_of_cons, ?elem_of_nil; lia|]). discriminate.
    - intros u es v Hu Hes.
      do 5 (destruct u as [|u]; [injection Hes as <-; rewrite ?elem_of_cons, ?elem_of_nil; do 5 (destruct v as [|v]; [cbn; lia|]); cbn; lia|]). discriminate. }
  split; [exact (ctree_tree _ _ _ _ _ Ht)|]. split.
  - intros [l Hl]. assert (1 <= 1 < 5) as H1 by lia. pose proof (walk_in _ _ _ _ _ Ht 1 0 l Hl H1) as H0. cbn in H0. lia.
  - split; [|vm_compute; auto]. exists [1; 2; 4].
    econstructor; [exists [2]; split; [reflexivity|left]|]. econstructor; [exists [1; 3; 4]; split; [reflexivity|right; right; left]|]. constructor.
Qed.
