(** BinaryLifting::dfs with the panics caught: main theorems (C139). *)
From Verif Require Import Prelude UtilModel UtilProof TreeSpec CompSpec LiftModel CompTree CompLift LiftDfsSpec LiftDfsProof CompProps LiftDfsProps Unwind LiftUnwindModel LiftUnwindSpec LiftUnwindProof.

(** C139: when nobody catches the panic it is the dfs of C86. *)
Theorem C139_same : forall fuel g u p b t, strip (blu_dfs fuel g u p (b, t)) = (st ← bl_dfs fuel g u p (b, t); Ok (st, tt)).
Proof. intros. apply strip_dfs. Qed.
Print Assumptions C139_same.

(** A dfs on any graph from any vertex, returned or unwound: the level, the lengths of the fields and of the rows stay, the timer is not lower
    than before, and nothing stored for the vertices that u does not reach changes. *)
Theorem C139_left : forall fuel g u p b t b' t' o, blu_dfs fuel g u p (b, t) = Ok ((b', t'), o) ->
  t <= t' /\ bl_level b' = bl_level b /\ length (bl_pa b') = length (bl_pa b) /\ length (bl_dep b') = length (bl_dep b) /\
  length (bl_tin b') = length (bl_tin b) /\ length (bl_tout b') = length (bl_tout b) /\
  (forall v row', bl_pa b' !! v = Some row' -> exists row, bl_pa b !! v = Some row /\ length row' = length row) /\
  forall v, ~ reached g u v -> bl_pa b' !! v = bl_pa b !! v /\ bl_dep b' !! v = bl_dep b !! v /\ bl_tin b' !! v = bl_tin b !! v /\ bl_tout b' !! v = bl_tout b !! v.
Proof. intros fuel g u p b t b' t' o H. exact (only_dfs g u fuel u p (root_reached g u) _ _ _ H). Qed.
Print Assumptions C139_left.

(** The answers on a set of vertices that u does not reach and whose jumps stay inside it are as before. *)
Theorem C139_others : forall fuel g u p b t b' t' o (P : nat -> Prop), blu_dfs fuel g u p (b, t) = Ok ((b', t'), o) ->
  (forall v, P v -> ~ reached g u v) -> (forall v row x, P v -> bl_pa b !! v = Some row -> x ∈ row -> P x) ->
  forall x y, P x -> P y -> bl_is_ancestor b' x y = bl_is_ancestor b x y /\ bl_lca b' x y = bl_lca b x y /\
    ((exists c, bl_lca b x y = Ok c /\ P c) -> bl_dis b' x y = bl_dis b x y).
Proof.
  intros fuel g u p b t b' t' o P H HP HC. destruct (C139_left _ _ _ _ _ _ _ _ _ H) as (_ & Lv & _ & _ & _ & _ & _ & Fr).
  assert (Vg : forall {A} (l l' : list A) v, l' !! v = l !! v -> vget l' v = vget l v) by (intros A l l' v E; unfold vget; rewrite E; reflexivity).
  assert (An : forall x y, P x -> P y -> bl_is_ancestor b' x y = bl_is_ancestor b x y).
  { intros x y Hx Hy. destruct (Fr x (HP x Hx)) as (_ & _ & X1 & X2). destruct (Fr y (HP y Hy)) as (_ & _ & Y1 & _). unfold bl_is_ancestor. rewrite (Vg _ _ _ _ Y1), (Vg _ _ _ _ X1), (Vg _ _ _ _ X2). reflexivity. }
  assert (Pa : forall x i, P x -> pa_get (bl_pa b') x i = pa_get (bl_pa b) x i) by (intros x i Hx; destruct (Fr x (HP x Hx)) as (X1 & _); unfold pa_get; rewrite (Vg _ _ _ _ X1); reflexivity).
  assert (Pc : forall x i z, P x -> pa_get (bl_pa b) x i = Ok z -> P z).
  { intros x i z Hx E. unfold pa_get in E. apply rbind_ok_inv in E as (row & E1 & E2). apply vget_ok_iff in E1. apply vget_ok_iff in E2. apply (HC x row z Hx E1). eapply elem_of_list_lookup_2; eauto. }
  intros x y Hx Hy. split; [auto|].
  assert (Lc : bl_lca b' x y = bl_lca b x y).
  { unfold bl_lca. rewrite (An x y Hx Hy). destruct (bl_is_ancestor b x y) as [[]| |]; cbn [mbind res_bind]; try reflexivity. rewrite (An y x Hy Hx). destruct (bl_is_ancestor b y x) as [[]| |]; cbn [mbind res_bind]; try reflexivity. rewrite Lv.
    generalize (rev (range 0 (bl_level b))) as xs. intros xs. revert x Hx. induction xs as [|i xs IH]; intros x Hx; cbn [rfor]; [cbn [mbind res_bind]; apply Pa; exact Hx|].
    rewrite (Pa x i Hx). destruct (pa_get (bl_pa b) x i) as [z| |] eqn:Ez; cbn [mbind res_bind]; try reflexivity. pose proof (Pc x i z Hx Ez) as Hz. rewrite (An z y Hz Hy). destruct (bl_is_ancestor b z y) as [[]| |]; cbn [mbind res_bind]; try reflexivity; apply IH; assumption. }
  split; [exact Lc|]. intros (c & Ec & Hc). unfold bl_dis. rewrite Lc, Ec. cbn [mbind res_bind]. destruct (Fr x (HP x Hx)) as (_ & X & _). destruct (Fr y (HP y Hy)) as (_ & Y & _). destruct (Fr c (HP c Hc)) as (_ & C & _).
  rewrite (Vg _ _ _ _ X), (Vg _ _ _ _ C), (Vg _ _ _ _ Y). reflexivity.
Qed.
Print Assumptions C139_others.

(** After any history of dfs calls that returned or unwound, on any graphs, dfs(g, r, r, timer) on a tree makes the answers those of
    the tree rooted at r, as in C86. *)
Theorem C139_reroot : forall g r b t, bl_left (length g) b -> tree_at g r -> (Z.of_nat (length g) < 2 ^ 64)%Z ->
  exists d0 b' l, bl_dep b !! r = Some d0 /\ NoDup l /\ (forall v, v ∈ l <-> reached g r v) /\
  blu_dfs (S (length g)) g r r (b, t) = Ok ((b', t + length l), Some tt) /\
  (forall u v, reached g r u -> reached g r v ->
     (exists a, bl_is_ancestor b' u v = Ok a /\ (a = true <-> ancestor g r u v)) /\
     (exists c, bl_lca b' u v = Ok c /\ reached g r c /\ is_lca g r u v c) /\
     (exists d, bl_dis b' u v = Ok d /\ is_dist g u v d)) /\
  (forall v, reached g r v -> exists d, bl_dep b' !! v = Some (d0 + d) /\ is_dist g r v d).
Proof.
  intros g r b t S T Hn. pose proof (ta_root _ _ T) as Hr. pose proof (left_shape g b ltac:(lia) Hn S) as W.
  destruct (lookup_lt_is_Some_2 (bl_dep b) r) as [d0 D0]; [rewrite (w_dep _ _ _ W); exact Hr|].
  destruct (tree_ctree g r T) as (par & dep & Ht). pose proof (levels_pos (length g)) as Hl. pose proof (levels_pow (length g) ltac:(lia)) as Hp.
  destruct (dfs_walked g _ r par dep Ht (levels (length g)) Hl Hp d0 b t W D0) as (b' & t' & E & K & F & l & Nl & Il & ->).
  exists d0, b', l. split; [exact D0|]. split; [exact Nl|]. split; [exact Il|]. split; [apply strip_Ok; rewrite strip_dfs, E; reflexivity|].
  exact (walked_answers g r par dep _ d0 t _ b' Ht Hl Hp K).
Qed.
Print Assumptions C139_reroot.

(** The two trees of C86: a dfs on a graph in which 4 has the neighbour 9 unwinds after writing the entries of 3 and 4; the answers on 0, 1, 2 are as
    before, those on 3, 4 are wrong until dfs is called on the tree again. *)
Definition bad_graph : list (list nat) := [[1]; [0; 2]; [1]; [4]; [3; 9]].
Definition ex_left (k : bl * nat -> res (bl * nat)) : res (bl * nat * option unit) := st ← forest two_trees 0 [3] 3; blu_dfs 6 bad_graph 4 4 st ≫= fun x => st ← k x.1; Ok (st, x.2).
Example C139_nonvacuous :
  (x ← ex_left Ok; Ok (x.2, bl_dep x.1.1, bl_tin x.1.1, bl_tout x.1.1)) = Ok (None, [0; 1; 2; 2; 1], [0; 1; 2; 6; 5], [3; 3; 3; 7; 5]) /\
  (x ← ex_left Ok; bl_dis x.1.1 0 2) = Ok 2 /\ (x ← ex_left Ok; bl_is_ancestor x.1.1 4 3) = Ok false /\
  (x ← ex_left (bl_dfs 6 two_trees 4 4); bl_is_ancestor x.1.1 4 3) = Ok true /\ (x ← ex_left (bl_dfs 6 two_trees 4 4); bl_dis x.1.1 4 3) = Ok 1.
Proof. split_and!; vm_compute; reflexivity. Qed.
