(** Facts about rooted trees. *)
From stdpp Require Import relations.
From Verif Require Import Prelude TreeSpec.

(** g is the tree with this root, parent and depth function. *)
Record rtree (g : list (list nat)) (root : nat) (par dep : nat -> nat) : Prop := {
  t_root : root < length g;
  t_root_par : par root = root;
  t_root_dep : dep root = 0;
  t_par : forall v, v < length g -> v <> root -> par v < length g /\ dep v = S (dep (par v));
  t_nodup : forall u es, g !! u = Some es -> NoDup es;
  t_adj : forall u es v, g !! u = Some es ->
    (v ∈ es <-> (v < length g /\ v <> root /\ par v = u) \/ (u <> root /\ v = par u)) }.

Section tree.
  Context (g : list (list nat)) (root : nat) (par dep : nat -> nat) (Ht : rtree g root par dep).
  Notation n := (length g).

  Fixpoint up (k v : nat) : nat := match k with O => v | S k => par (up k v) end.
  Lemma up_add a b v : up (a + b) v = up a (up b v).
  Proof. induction a as [|a IH]; cbn; [reflexivity|]. rewrite IH. reflexivity. Qed.
  Lemma up_S_r k v : up (S k) v = up k (par v).
  Proof. rewrite <- Nat.add_1_r, up_add. reflexivity. Qed.
  Lemma up_root k : up k root = root.
  Proof. induction k as [|k IH]; cbn; [reflexivity|]. rewrite IH. apply (t_root_par _ _ _ _ Ht). Qed.
  Lemma par_lt v : v < n -> par v < n.
  Proof.
    intros Hv. destruct (decide (v = root)) as [->|Hne]; [rewrite (t_root_par _ _ _ _ Ht); exact Hv|].
    apply (t_par _ _ _ _ Ht v Hv Hne).
  Qed.
  Lemma up_lt k v : v < n -> up k v < n.
  Proof. intros Hv. induction k as [|k IH]; cbn; [exact Hv|]. apply par_lt. exact IH. Qed.
  Lemma dep_0 v : v < n -> dep v = 0 -> v = root.
  Proof.
    intros Hv Hd. destruct (decide (v = root)) as [|Hne]; [assumption|]. destruct (t_par _ _ _ _ Ht v Hv Hne). lia.
  Qed.
  Lemma dep_par v : v < n -> dep (par v) = dep v - 1.
  Proof.
    intros Hv. destruct (decide (v = root)) as [->|Hne].
    - rewrite (t_root_par _ _ _ _ Ht), (t_root_dep _ _ _ _ Ht). reflexivity.
    - destruct (t_par _ _ _ _ Ht v Hv Hne). lia.
  Qed.
  Lemma dep_up k v : v < n -> dep (up k v) = dep v - k.
  Proof. intros Hv. induction k as [|k IH]; cbn; [lia|]. rewrite dep_par by (apply up_lt; exact Hv). lia. Qed.
  Lemma up_dep v : v < n -> up (dep v) v = root.
  Proof. intros Hv. apply dep_0; [apply up_lt; exact Hv|]. rewrite dep_up by exact Hv. lia. Qed.
  Lemma up_high k v : v < n -> dep v <= k -> up k v = root.
  Proof. intros Hv Hk. replace k with ((k - dep v) + dep v) by lia. rewrite up_add, up_dep by exact Hv. apply up_root. Qed.

  Definition anc (u v : nat) : Prop := exists k, up k v = u.
  Lemma anc_bound u v : v < n -> anc u v -> exists k, k <= dep v /\ up k v = u /\ dep u = dep v - k.
  Proof.
    intros Hv [k <-]. destruct (decide (k <= dep v)) as [Hk|Hk].
    - exists k. split; [exact Hk|]. split; [reflexivity|]. apply dep_up. exact Hv.
    - exists (dep v). split; [lia|]. rewrite (up_high k v), up_dep by (auto; lia). split; [reflexivity|]. rewrite (t_root_dep _ _ _ _ Ht). lia.
  Qed.
  Lemma anc_dec u v : v < n -> anc u v \/ ~ anc u v.
  Proof.
    intros Hv. destruct (decide (u ∈ map (fun k => up k v) (seq 0 (S (dep v))))) as [Hd|Hd].
    - left. apply elem_of_list_fmap in Hd as (k & -> & _). exists k. reflexivity.
    - right. intros A. destruct (anc_bound _ _ Hv A) as (j & J1 & J2 & _). apply Hd. apply elem_of_list_fmap. exists j. split; [symmetry; exact J2|].
      apply elem_of_seq. lia.
  Qed.
  Lemma anc_lt u v : v < n -> anc u v -> u < n.
  Proof. intros Hv [k <-]. apply up_lt. exact Hv. Qed.
  Lemma anc_refl v : anc v v.
  Proof. exists 0. reflexivity. Qed.
  Lemma anc_trans u v w : anc u v -> anc v w -> anc u w.
  Proof. intros [a <-] [b <-]. exists (a + b). apply up_add. Qed.
  Lemma anc_root v : v < n -> anc root v.
  Proof. intros Hv. exists (dep v). apply up_dep. exact Hv. Qed.
  Lemma anc_par v : anc (par v) v.
  Proof. exists 1. reflexivity. Qed.
  Lemma anc_up k v : anc (up k v) v.
  Proof. exists k. reflexivity. Qed.
  Lemma anc_dep u v : v < n -> anc u v -> dep u <= dep v.
  Proof. intros Hv H. destruct (anc_bound u v Hv H) as (k & ? & ? & ?). lia. Qed.
  Lemma anc_dep_eq u v : v < n -> anc u v -> dep v <= dep u -> u = v.
  Proof.
    intros Hv H Hd. destruct (anc_bound u v Hv H) as (k & H1 & H2 & H3). assert (k = 0) as -> by lia. symmetry. exact H2.
  Qed.
  Lemma anc_antisym u v : u < n -> v < n -> anc u v -> anc v u -> u = v.
  Proof. intros Hu Hv H1 H2. apply anc_dep_eq; auto. apply anc_dep; auto. Qed.
  Lemma anc_comparable a b v : anc a v -> anc b v -> anc a b \/ anc b a.
  Proof.
    intros [i <-] [j <-]. destruct (decide (i <= j)).
    - right. exists (j - i). rewrite <- up_add. f_equal. lia.
    - left. exists (i - j). rewrite <- up_add. f_equal. lia.
  Qed.
  Lemma anc_step u v : anc u v -> u = v \/ anc u (par v).
  Proof. intros [[|k] E]; [left; symmetry; exact E|right]. exists k. rewrite <- up_S_r. exact E. Qed.
  Lemma anc_par_not u : u < n -> u <> root -> ~ anc u (par u).
  Proof.
    intros Hu Hr H. destruct (t_par _ _ _ _ Ht u Hu Hr) as [Hp Hd]. pose proof (anc_dep _ _ Hp H). lia.
  Qed.

  (** c is a child of u. *)
  Definition child (u c : nat) : Prop := c < n /\ c <> root /\ par c = u.
  Lemma child_dep u c : child u c -> dep c = S (dep u).
  Proof. intros (H1 & H2 & <-). apply (t_par _ _ _ _ Ht c H1 H2). Qed.
  Lemma child_anc u c : child u c -> anc u c.
  Proof. intros (_ & _ & <-). apply anc_par. Qed.
  Lemma anc_split u v : v < n -> anc u v <-> v = u \/ exists c, child u c /\ anc c v.
  Proof.
    intros Hv. split.
    - intros H. destruct (anc_bound u v Hv H) as (k & Hk & E & Hd). destruct k as [|k]; [left; exact E|right].
      exists (up k v). split; [|apply anc_up]. split; [apply up_lt; exact Hv|]. split; [|exact E].
      intros Er. pose proof (dep_up k v Hv) as D. rewrite Er, (t_root_dep _ _ _ _ Ht) in D. lia.
    - intros [->|(c & Hc & H)]; [apply anc_refl|]. eapply anc_trans; [|exact H]. apply child_anc. exact Hc.
  Qed.
  Lemma child_disjoint u c1 c2 v : v < n -> child u c1 -> child u c2 -> anc c1 v -> anc c2 v -> c1 = c2.
  Proof.
    intros Hv H1 H2 A1 A2. pose proof (child_dep _ _ H1). pose proof (child_dep _ _ H2).
    destruct H1 as (L1 & _). destruct H2 as (L2 & _).
    destruct (anc_comparable c1 c2 v A1 A2) as [A|A]; [|symmetry]; apply anc_dep_eq; auto; lia.
  Qed.
  Lemma child_not_anc u c : child u c -> ~ anc c u.
  Proof. intros Hc H. pose proof Hc as (H1 & H2 & H3). rewrite <- H3 in H. exact (anc_par_not c H1 H2 H). Qed.

  Lemma adj_children u es v : u < n -> g !! u = Some es -> (v ∈ es /\ v <> par u <-> child u v).
  Proof.
    intros Hu Hes. rewrite (t_adj _ _ _ _ Ht u es v Hes). split.
    - intros [[H|[_ ->]] Hne]; [exact H|congruence].
    - intros Hc. split; [left; exact Hc|]. intros E. apply (child_not_anc u v Hc). rewrite E. apply anc_par.
  Qed.

  (** Depth is below the number of vertices. *)
  Lemma dep_lt v : v < n -> dep v < n.
  Proof.
    intros Hv. set (l := map (fun k => up k v) (seq 0 (S (dep v)))).
    assert (NoDup l) as Hnd.
    { unfold l. change (map ?f ?l) with (f <$> l). apply NoDup_fmap_2_strong; [|apply NoDup_seq].
      intros x y Hx Hy E. apply elem_of_seq in Hx, Hy. pose proof (dep_up x v Hv). pose proof (dep_up y v Hv). rewrite E in *. lia. }
    assert (length l = S (dep v)) as Hl by (unfold l; rewrite map_length, seq_length; reflexivity).
    assert (length l <= n); [|lia]. rewrite <- (seq_length n 0). apply submseteq_length. apply NoDup_submseteq; [exact Hnd|].
    intros x Hx. unfold l in Hx. apply elem_of_list_fmap in Hx as (k & -> & _). apply elem_of_seq. pose proof (up_lt k v Hv). lia.
  Qed.

  (** *** Edges and walks *)
  Lemma edge_iff u v : edge g u v <-> u < n /\ v < n /\ (child u v \/ child v u).
  Proof.
    split.
    - intros (es & Hes & Hv). pose proof (lookup_lt_Some _ _ _ Hes) as Hu. apply (t_adj _ _ _ _ Ht u es v Hes) in Hv as [H|[Hne ->]].
      + split; [exact Hu|]. split; [apply H|]. left. exact H.
      + split; [exact Hu|]. split; [apply par_lt; exact Hu|]. right. split; [exact Hu|]. auto.
    - intros (Hu & Hv & H). destruct (lookup_lt_is_Some_2 g u Hu) as [es Hes]. exists es. split; [exact Hes|].
      apply (t_adj _ _ _ _ Ht u es v Hes). destruct H as [H|(_ & Hne & E)]; [left; exact H|right; auto].
  Qed.
  Lemma edge_sym u v : edge g u v -> edge g v u.
  Proof. rewrite !edge_iff. tauto. Qed.
  Lemma walk_snoc u v w l : walk g u v l -> edge g v w -> walk g u w (l ++ [w]).
  Proof. induction 1 as [u|u x v l Hux _ IH]; intros He; cbn; [eapply walk_cons; [exact He|constructor]|eapply walk_cons; eauto]. Qed.
  Lemma walk_app u v w l1 l2 : walk g u v l1 -> walk g v w l2 -> walk g u w (l1 ++ tail l2).
  Proof.
    induction 1 as [u|u x v l Hux _ IH]; intros H2.
    - inversion H2; subst; cbn; [constructor|]. econstructor; eauto.
    - cbn. econstructor; eauto.
  Qed.
  Lemma walk_inv_snoc u v l : walk g u v l -> (u = v /\ l = [u]) \/ exists x l', walk g u x l' /\ edge g x v /\ l = l' ++ [v].
  Proof.
    induction 1 as [u|u w v l Hux Hw IH]; [left; auto|]. right. destruct IH as [[-> ->]|(x & l' & H1 & H2 & ->)].
    - exists u, [u]. split; [constructor|]. auto.
    - exists x, (u :: l'). split; [econstructor; eauto|]. auto.
  Qed.
  Lemma walk_up k v : v < n -> k <= dep v -> walk g v (up k v) (map (fun i => up i v) (seq 0 (S k))).
  Proof.
    intros Hv. induction k as [|k IH]; intros Hk; [constructor|].
    rewrite seq_S, map_app. cbn [map]. eapply walk_snoc; [apply IH; lia|].
    apply edge_iff. split; [apply up_lt; exact Hv|]. split; [apply up_lt; exact Hv|]. right. split; [apply up_lt; exact Hv|]. split; [|reflexivity].
    intros E. pose proof (dep_up k v Hv) as D. rewrite E, (t_root_dep _ _ _ _ Ht) in D. lia.
  Qed.
  Lemma walk_rev u v l : walk g u v l -> walk g v u (rev l).
  Proof. induction 1 as [u|u w v l Hux Hw IH]; cbn; [constructor|]. eapply walk_snoc; [exact IH|]. apply edge_sym. exact Hux. Qed.

  Lemma ancestor_iff u v : u < n -> v < n -> ancestor g root u v <-> anc u v.
  Proof.
    intros Hu Hv. split.
    - intros H. pose proof (walk_up (dep v) v Hv ltac:(lia)) as Hw. rewrite up_dep in Hw by exact Hv. apply walk_rev in Hw.
      specialize (H _ Hw). rewrite elem_of_list_In, <- in_rev, <- elem_of_list_In in H.
      apply elem_of_list_fmap in H as (k & -> & _). apply anc_up.
    - intros H l Hw.
      assert (forall m l v, length l <= m -> v < n -> walk g root v l -> anc u v -> u ∈ l) as HH; [|eapply HH; eauto].
      clear l v Hv H Hw. induction m as [|m IH]; intros l v Hm Hv Hw H.
      { inversion Hw; subst; cbn in Hm; lia. }
      destruct (walk_inv_snoc _ _ _ Hw) as [[<- ->]|(x & l' & H1 & H2 & ->)].
      + destruct H as [k <-]. rewrite up_root. apply elem_of_list_here.
      + apply elem_of_app. destruct (decide (u = v)) as [->|Hne]; [right; apply elem_of_list_here|left].
        apply edge_iff in H2 as (Hx & _ & Hc). rewrite app_length in Hm. cbn in Hm. apply (IH l' x); auto; [lia|].
        destruct Hc as [Hc|Hc].
        * destruct (anc_step u v H) as [?|Hp]; [congruence|]. destruct Hc as (_ & _ & <-). exact Hp.
        * eapply anc_trans; [exact H|]. apply child_anc. exact Hc.
  Qed.

  (** *** Lowest common ancestors and distances *)
  Definition lcap (u v l : nat) : Prop := anc l u /\ anc l v /\ forall w, anc w u -> anc w v -> anc w l.
  Lemma lcap_intro u v x : v < n -> u < n -> anc x u -> ~ anc x v -> anc (par x) v -> lcap u v (par x).
  Proof.
    intros Hv Hu H1 H2 H3. split; [|split; [exact H3|]].
    - eapply anc_trans; [apply anc_par|exact H1].
    - intros w W1 W2. destruct (anc_comparable w x u W1 H1) as [A|A].
      + destruct (anc_step w x A) as [->|?]; [contradiction|assumption].
      + exfalso. apply H2. eapply anc_trans; eassumption.
  Qed.
  Lemma lcap_exists u v : u < n -> v < n -> exists l, lcap u v l.
  Proof.
    intros Hu Hv. assert (forall k x, anc x u -> dep x <= k -> ~ anc x v -> exists l, lcap u v l) as H.
    { induction k as [|k IH]; intros x Hx Hd Hn.
      - exfalso. apply Hn. assert (x = root) as -> by (apply dep_0; [exact (anc_lt x u Hu Hx)|lia]). apply anc_root. exact Hv.
      - assert (x < n) as Hxn by exact (anc_lt x u Hu Hx).
        assert (x <> root) as Hr by (intros ->; apply Hn; apply anc_root; exact Hv).
        destruct (anc_dec (par x) v Hv) as [Hp|Hp].
        + exists (par x). apply lcap_intro; auto.
        + apply (IH (par x)); auto; [eapply anc_trans; [apply anc_par|exact Hx]|]. rewrite dep_par by exact Hxn.
          destruct (t_par _ _ _ _ Ht x Hxn Hr). lia. }
    destruct (anc_dec u v Hv) as [Hp|Hp].
    - exists u. split; [apply anc_refl|]. split; [exact Hp|]. auto.
    - apply (H (dep u) u); auto. apply anc_refl.
  Qed.
  Lemma lcap_unique u v l l' : u < n -> lcap u v l -> lcap u v l' -> l = l'.
  Proof.
    intros Hu (A1 & A2 & A3) (B1 & B2 & B3). apply anc_antisym; [exact (anc_lt l u Hu A1)|exact (anc_lt l' u Hu B1)|auto|auto].
  Qed.
  Lemma is_lca_iff u v l : u < n -> v < n -> l < n -> is_lca g root u v l <-> lcap u v l.
  Proof.
    intros Hu Hv Hl. unfold is_lca, lcap. rewrite !ancestor_iff by assumption. split; intros (H1 & H2 & H3).
    - split; [exact H1|]. split; [exact H2|]. intros w W1 W2. assert (w < n) as Hw by exact (anc_lt w u Hu W1).
      apply ancestor_iff; auto. apply H3; auto; apply ancestor_iff; auto.
    - split; [exact H1|]. split; [exact H2|]. intros w Hw W1 W2. apply ancestor_iff; auto. apply H3; apply ancestor_iff; auto.
  Qed.

  (** Moving to the parent changes the distance by one. *)
  Lemma lcap_par x v l : x < n -> v < n -> x <> root -> ~ anc x v -> lcap x v l -> lcap (par x) v l.
  Proof.
    intros Hx Hv Hr Hna (H1 & H2 & H3). split; [|split; [exact H2|]].
    - destruct (anc_step l x H1) as [->|?]; [contradiction|assumption].
    - intros w W1 W2. apply H3; [|exact W2]. eapply anc_trans; [exact W1|apply anc_par].
  Qed.
  Lemma lcap_anc x v : anc x v -> lcap x v x.
  Proof. intros H. split; [apply anc_refl|]. auto. Qed.
  Lemma child_dist x y v l l' : x < n -> v < n -> child y x -> lcap x v l -> lcap y v l' ->
    dep x + dep v - 2 * dep l <= S (dep y + dep v - 2 * dep l') /\ dep y + dep v - 2 * dep l' <= S (dep x + dep v - 2 * dep l).
  Proof.
    intros Hx Hv Hc Hl Hl'. pose proof (child_dep _ _ Hc) as Hd. destruct Hc as (_ & Hr & <-).
    assert (par x < n) as Hpx by (apply par_lt; exact Hx).
    destruct (anc_dec x v Hv) as [Hp|Hp].
    - rewrite (lcap_unique x v l x Hx Hl (lcap_anc x v Hp)).
      rewrite (lcap_unique (par x) v l' (par x) Hpx Hl' (lcap_anc _ _ (anc_trans _ _ _ (anc_par x) Hp))). pose proof (anc_dep _ _ Hv Hp). lia.
    - pose proof (lcap_par x v l Hx Hv Hr Hp Hl) as Hl2. rewrite (lcap_unique _ _ _ _ Hpx Hl' Hl2).
      destruct Hl2 as (A1 & A2 & _). pose proof (anc_dep _ _ Hpx A1). pose proof (anc_dep _ _ Hv A2). lia.
  Qed.
  Lemma dist_ok u v l : u < n -> v < n -> lcap u v l -> is_dist g u v (dep u + dep v - 2 * dep l).
  Proof.
    intros Hu Hv Hl. pose proof Hl as (L1 & L2 & _).
    destruct (anc_bound _ _ Hu L1) as (a & A1 & A2 & A3). destruct (anc_bound _ _ Hv L2) as (b & B1 & B2 & B3). split.
    - pose proof (walk_up a u Hu A1) as W1. pose proof (walk_rev _ _ _ (walk_up b v Hv B1)) as W2. rewrite A2 in W1. rewrite B2 in W2.
      exists (map (fun i => up i u) (seq 0 (S a)) ++ tail (rev (map (fun i => up i v) (seq 0 (S b))))). split; [eapply walk_app; eauto|].
      rewrite app_length, map_length, seq_length.
      assert (forall A (l : list A), length (tail l) = length l - 1) as -> by (intros A [|? ?]; cbn; lia).
      rewrite rev_length, map_length, seq_length. lia.
    - intros p Hw. clear a A1 A2 A3 b B1 B2 B3 L1 L2.
      revert Hv Hu l Hl. induction Hw as [u|u w v p Huw Hw IH]; intros Hv Hu l Hl.
      + rewrite (lcap_unique u u l u Hu Hl (lcap_anc u u (anc_refl u))). cbn. lia.
      + apply edge_iff in Huw as (_ & Hwn & Hc). destruct (lcap_exists w v Hwn Hv) as [l' Hl']. specialize (IH Hv Hwn l' Hl'). cbn [length].
        destruct Hc as [Hc|Hc].
        * pose proof (child_dist w u v l' l Hwn Hv Hc Hl' Hl). lia.
        * pose proof (child_dist u w v l l' Hu Hv Hc Hl Hl'). lia.
  Qed.

  (** *** A rooted tree is a tree *)
  Lemma walk_cross a b c l : walk g a b l -> c < n -> c <> root -> anc c b -> ~ anc c a -> par c ∈ l.
  Proof.
    induction 1 as [u|u w v l He Hw IH]; intros Hc Hr Hb Ha; [contradiction|]. apply elem_of_cons.
    apply edge_iff in He as (Hu & Hwn & H). destruct (anc_dec c w Hwn) as [Hcw|Hcw]; [|right; auto]. left.
    destruct H as [H|H].
    - destruct (anc_step c w Hcw) as [->|A]; [apply H|]. destruct H as (_ & _ & E). rewrite E in A. contradiction.
    - exfalso. apply Ha. eapply anc_trans; [exact Hcw|]. apply child_anc. exact H.
  Qed.
  Lemma walk_lt u v l : walk g u v l -> u < n -> v < n.
  Proof. induction 1 as [|u w v l He Hw IH]; [auto|]. intros _. apply IH. apply edge_iff in He. tauto. Qed.
  Lemma first_step u w v l c : NoDup (u :: l) -> edge g u w -> walk g w v l -> anc u v -> child u c -> anc c v -> w = c.
  Proof.
    intros Hnd He Hw A Hc Ac. apply NoDup_cons in Hnd as [Hnin _]. pose proof (proj1 (edge_iff u w) He) as (Hu & Hwn & H).
    destruct (decide (w = c)) as [|Hne]; [assumption|]. exfalso. apply Hnin. pose proof Hc as (C1 & C2 & C3). rewrite <- C3.
    eapply walk_cross; eauto. intros Acw. destruct H as [H|H].
    - apply Hne. exact (child_disjoint u w c w Hwn H Hc (anc_refl w) Acw).
    - apply (child_not_anc u c Hc). eapply anc_trans; [exact Acw|]. apply child_anc. exact H.
  Qed.
  Lemma first_step_up u w v l : NoDup (u :: l) -> edge g u w -> walk g w v l -> ~ anc u v -> w = par u.
  Proof.
    intros Hnd He Hw A. apply NoDup_cons in Hnd as [Hnin _]. apply edge_iff in He as (Hu & Hwn & [H|H]); [|symmetry; apply H].
    exfalso. apply Hnin. pose proof H as (C1 & C2 & C3). rewrite <- C3.
    apply walk_rev in Hw. rewrite elem_of_list_In, in_rev, <- elem_of_list_In. eapply walk_cross; eauto; [apply anc_refl|].
    intros B. apply A. eapply anc_trans; [|exact B]. apply child_anc. exact H.
  Qed.
  Lemma walk_head_eq u v l : walk g u v l -> exists l', l = u :: l'.
  Proof. destruct 1; eauto. Qed.
  Lemma walk_self u l : walk g u u l -> NoDup l -> l = [u].
  Proof.
    intros H Hnd. inversion H as [|? w ? l' He Hw]; subst; [reflexivity|]. exfalso. apply NoDup_cons in Hnd as [Hnin _]. apply Hnin.
    apply walk_rev, walk_head_eq in Hw as (l2 & E). rewrite elem_of_list_In, in_rev, E. left. reflexivity.
  Qed.
  Lemma walk_unique u v l l' : walk g u v l -> NoDup l -> walk g u v l' -> NoDup l' -> l = l'.
  Proof.
    intros H. revert l'. induction H as [u|u w v l He Hw IH]; intros l' Hnd H' Hnd'; [symmetry; apply walk_self; auto|].
    inversion H' as [|? w' ? l2 He' Hw']; subst.
    { apply walk_self; [econstructor; eauto|exact Hnd]. }
    assert (w = w') as <-.
    { pose proof (proj1 (edge_iff u w) He) as (Hu & Hwn & _). pose proof (walk_lt _ _ _ Hw Hwn) as Hv.
      destruct (anc_dec u v Hv) as [A|A].
      - pose proof A as A'. apply (anc_split u v Hv) in A' as [->|(c & Hc & Ac)].
        + exfalso. apply NoDup_cons in Hnd as [Hnin _]. apply Hnin. apply walk_rev, walk_head_eq in Hw as (l3 & E).
          rewrite elem_of_list_In, in_rev, E. left. reflexivity.
        + rewrite (first_step u w v l c), (first_step u w' v l2 c); auto.
      - rewrite (first_step_up u w v l), (first_step_up u w' v l2); auto. }
    f_equal. apply NoDup_cons in Hnd as [_ Hnd]. apply NoDup_cons in Hnd' as [_ Hnd']. apply IH; auto.
  Qed.
  Lemma walk_shorten u v l : walk g u v l -> exists l', walk g u v l' /\ NoDup l'.
  Proof.
    induction 1 as [u|u w v l He Hw (l' & H1 & H2)]; [exists [u]; split; [constructor|apply NoDup_singleton]|].
    destruct (decide (u ∈ l')) as [Hin|Hin].
    - clear He Hw. revert Hin H2. induction H1 as [x|x y z l1 Hxy Hw IH]; intros Hin Hnd.
      + apply elem_of_list_singleton in Hin as ->. exists [x]. split; [constructor|exact Hnd].
      + apply elem_of_cons in Hin as [->|Hin]; [exists (x :: l1); split; [econstructor; eauto|exact Hnd]|]. apply NoDup_cons in Hnd as [_ Hnd]. auto.
    - exists (u :: l'). split; [econstructor; eauto|]. apply NoDup_cons. auto.
  Qed.
  Lemma rtree_tree : is_tree g.
  Proof.
    split.
    - apply (t_nodup _ _ _ _ Ht).
    - intros u He. apply edge_iff in He as (Hu & _ & [H|H]); exact (child_not_anc u u H (anc_refl u)).
    - apply edge_sym.
    - intros u v Hu Hv. pose proof (walk_up (dep u) u Hu ltac:(lia)) as W1. pose proof (walk_rev _ _ _ (walk_up (dep v) v Hv ltac:(lia))) as W2.
      rewrite up_dep in W1, W2 by assumption. exact (walk_shorten _ _ _ (walk_app _ _ _ _ _ W1 W2)).
    - apply walk_unique.
  Qed.
End tree.

(** *** A tree can be rooted anywhere *)
Section rooting.
  Context (g : list (list nat)) (Ht : is_tree g).
  Lemma walk_head u v l : walk g u v l -> head l = Some u.
  Proof. destruct 1; reflexivity. Qed.
  Lemma walk_last u v l : walk g u v l -> last l = Some v.
  Proof. induction 1 as [|u w v l He Hw IH]; [reflexivity|]. destruct l; [discriminate|]. exact IH. Qed.
  Lemma walk_split u v x l : walk g u v l -> x ∈ l -> exists l1 l2, l = l1 ++ x :: l2 /\ walk g u x (l1 ++ [x]) /\ walk g x v (x :: l2).
  Proof.
    induction 1 as [u|u w v l He Hw IH]; intros Hx.
    - apply elem_of_list_singleton in Hx as ->. exists [], []. split; [reflexivity|]. split; constructor.
    - apply elem_of_cons in Hx as [->|Hx].
      + exists [], l. split; [reflexivity|]. split; [constructor|]. econstructor; eauto.
      + destruct (IH Hx) as (l1 & l2 & -> & H1 & H2). exists (u :: l1), l2. split; [reflexivity|]. split; [|exact H2]. cbn. econstructor; eauto.
  Qed.
  Lemma edge_lt u v : edge g u v -> u < length g /\ v < length g.
  Proof.
    intros He. pose proof (tree_sym _ Ht _ _ He) as He'. destruct He as (? & H & _). destruct He' as (? & H' & _).
    split; eapply lookup_lt_Some; eassumption.
  Qed.

  Context (root : nat) (Hroot : root < length g).
  Lemma path_choice : exists P : nat -> list nat, forall v, v < length g -> walk g root v (P v) /\ NoDup (P v).
  Proof.
    assert (forall m, m <= length g -> exists P : nat -> list nat, forall v, v < m -> walk g root v (P v) /\ NoDup (P v)) as H; [|apply (H (length g)); lia].
    induction m as [|m IH]; intros Hm; [exists (fun _ => []); lia|].
    destruct IH as [P HP]; [lia|]. destruct (tree_path _ Ht root m Hroot ltac:(lia)) as (l & H1 & H2).
    exists (fun v => if decide (v = m) then l else P v). intros v Hv. destruct (decide (v = m)) as [->|Hne]; [auto|]. apply HP. lia.
  Qed.

  Lemma tree_rtree : exists par dep, rtree g root par dep.
  Proof.
    destruct path_choice as [P HP].
    exists (fun v => if decide (v = root) then root else default root (last (removelast (P v)))), (fun v => length (P v) - 1).
    assert (P root = [root]) as HR.
    { destruct (HP root Hroot) as [H1 H2]. eapply (tree_unique _ Ht root root); eauto; [constructor|]. apply NoDup_singleton. }
    (* every other vertex extends the path of its parent *)
    assert (forall v, v < length g -> v <> root -> exists q, q < length g /\ edge g q v /\ P v = P q ++ [v]) as Hext.
    { intros v Hv Hne. destruct (HP v Hv) as [H1 H2]. destruct (walk_inv_snoc g root v (P v) H1) as [[E _]|(x & l & W & He & E)]; [congruence|].
      destruct (edge_lt _ _ He) as [Hx _]. exists x. split; [exact Hx|]. split; [exact He|]. rewrite E. f_equal.
      destruct (HP x Hx) as [X1 X2]. eapply (tree_unique _ Ht root x); eauto. rewrite E in H2. apply NoDup_app in H2. apply H2. }
    assert (forall q v, q < length g -> last (removelast (P q ++ [v])) = Some q) as Hlast.
    { intros q v Hq. rewrite removelast_last. eapply walk_last. apply (HP q Hq). }
    assert (forall v, v < length g -> 1 <= length (P v)) as Hlen.
    { intros v Hv. destruct (HP v Hv) as [H1 _]. destruct H1; cbn; lia. }
    (* an edge joins a vertex to its parent *)
    assert (forall u v, edge g u v -> P v = P u ++ [v] \/ P u = P v ++ [u]) as Hedge.
    { intros u v He. destruct (edge_lt _ _ He) as [Hu Hv]. destruct (HP u Hu) as [U1 U2]. destruct (HP v Hv) as [V1 V2].
      destruct (decide (v ∈ P u)) as [Hin|Hin].
      - right. destruct (walk_split root u v (P u) U1 Hin) as (l1 & l2 & E & W1 & W2). rewrite E in U2.
        assert (NoDup (l1 ++ [v]) /\ NoDup (v :: l2)) as [N1 N2].
        { apply NoDup_app in U2 as (A & B & C). split; [|exact C]. apply NoDup_app. split; [exact A|]. split; [|apply NoDup_singleton].
          intros y Hy Hy'. apply elem_of_list_singleton in Hy' as ->. exact (B v Hy ltac:(apply elem_of_list_here)). }
        assert (v :: l2 = [v; u]) as E2.
        { eapply (tree_unique _ Ht v u); eauto.
          - econstructor; [apply (tree_sym _ Ht); exact He|constructor].
          - apply NoDup_cons. split; [|apply NoDup_singleton]. intros Hx. apply elem_of_list_singleton in Hx as ->. exact (tree_irrefl _ Ht u He). }
        injection E2 as ->. rewrite E. rewrite (tree_unique _ Ht root v (P v) (l1 ++ [v]) V1 V2 W1 N1), <- app_assoc. reflexivity.
      - left. eapply (tree_unique _ Ht root v); eauto.
        + eapply walk_snoc; eauto.
        + apply NoDup_app. split; [exact U2|]. split; [|apply NoDup_singleton].
          intros y Hy Hy'. apply elem_of_list_singleton in Hy' as ->. contradiction. }
    assert (forall u v, u < length g -> v < length g -> P v = P u ++ [v] -> v <> root) as Hnr.
    { intros u v Hu Hv E ->. apply (f_equal length) in E. rewrite HR, app_length in E. cbn in E. pose proof (Hlen u Hu). lia. }
    split.
    - exact Hroot.
    - rewrite decide_True by reflexivity. reflexivity.
    - rewrite HR. reflexivity.
    - intros v Hv Hne. rewrite decide_False by exact Hne. destruct (Hext v Hv Hne) as (q & Hq & He & E).
      rewrite E, Hlast by exact Hq. cbn [default]. split; [exact Hq|]. rewrite app_length. cbn. pose proof (Hlen q Hq). lia.
    - apply (tree_nodup _ Ht).
    - intros u es v Hes. pose proof (lookup_lt_Some _ _ _ Hes) as Hu. assert (v ∈ es <-> edge g u v) as ->.
      { split; [intros H; exists es; auto|]. intros (es' & H1 & H2). rewrite Hes in H1. injection H1 as <-. exact H2. }
      split.
      + intros He. destruct (edge_lt _ _ He) as [_ Hv]. destruct (Hedge u v He) as [E|E].
        * left. pose proof (Hnr u v Hu Hv E) as Hne. rewrite decide_False by exact Hne. rewrite E, Hlast by exact Hu. auto.
        * right. pose proof (Hnr v u Hv Hu E) as Hne. rewrite decide_False by exact Hne. rewrite E, Hlast by exact Hv. auto.
      + intros [(Hv & Hne & E)|[Hne E]].
        * rewrite decide_False in E by exact Hne. destruct (Hext v Hv Hne) as (q & Hq & He & Eq). rewrite Eq, Hlast in E by exact Hq. cbn in E. congruence.
        * rewrite decide_False in E by exact Hne. destruct (Hext u Hu Hne) as (q & Hq & He & Eq). rewrite Eq, Hlast in E by exact Hq. cbn in E. subst v.
          apply (tree_sym _ Ht). exact He.
  Qed.
End rooting.
