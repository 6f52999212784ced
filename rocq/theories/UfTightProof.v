(** Union-find: histories that need many calls of `find`. *)
From stdpp Require Import relations.
From Verif Require Import Prelude ArraySpec Eff UnionFindModel UnionFindSpec UnionFindProof UnionFindProps UnionFindRefProps GraphWorkModel UfWorkModel UfWorkSpec UfWorkProof.

Section plays.
  Context (n : nat) (Hn : (Z.of_nat n < 2 ^ 64)%Z).
  Definition good (u : uf) (lab : list nat) : Prop := Lab n u lab /\ sizes_exact n u.

  (** The history ops is one of joins of representatives; it leads from u to u' with c calls of find. *)
  Inductive plays : uf -> list nat -> list uf_op -> nat -> uf -> list nat -> Prop :=
  | pl_nil u lab : plays u lab [] 0 u lab
  | pl_cons u lab o u1 lab1 out k ops c u2 lab2 : join_of_reps lab o -> uf_spec_step lab o = Ok (lab1, out) -> uf_step u o = Ok (u1, out) ->
      (forall w, uf_stepW u o w = Ok ((u1, out), w + k)) -> plays u1 lab1 ops c u2 lab2 -> plays u lab (o :: ops) (k + c) u2 lab2.

  Lemma plays_app u lab ops1 c1 u1 lab1 ops2 c2 u2 lab2 : plays u lab ops1 c1 u1 lab1 -> plays u1 lab1 ops2 c2 u2 lab2 -> plays u lab (ops1 ++ ops2) (c1 + c2) u2 lab2.
  Proof. intros H1 H2. induction H1; [exact H2|]. cbn [app]. rewrite <- Nat.add_assoc. econstructor; eauto. Qed.
  Lemma plays_run u lab ops c u' lab' : plays u lab ops c u' lab' -> joins_of_reps lab ops /\ exists outs, run uf_step u ops = Ok (u', outs) /\ forall w, erun uf_stepW u ops w = Ok ((u', outs), w + c).
  Proof.
    induction 1 as [u lab|u lab o u1 lab1 out k ops c u2 lab2 J Sp St W P IH].
    - split; [exact I|]. exists []. split; [reflexivity|]. intros w. cbn. unfold eret. rewrite Nat.add_0_r. reflexivity.
    - destruct IH as (J1 & outs & R & E). split; [cbn [joins_of_reps]; rewrite Sp; auto|]. exists (out :: outs). cbn [run erun]. rewrite St. cbn [mbind res_bind]. rewrite R. split; [reflexivity|].
      intros w. unfold ebind. rewrite W. cbn [mbind res_bind]. rewrite E. cbn [mbind res_bind]. unfold eret. rewrite Nat.add_assoc. reflexivity.
  Qed.

  Lemma good_join u lab x y : good u lab -> uf_fa u !! x = Some x -> uf_fa u !! y = Some y -> x <> y ->
    exists u' lab', plays u lab [UfJoin x y] 2 u' lab' /\ good u' lab' /\ uf_fa u' = <[x := y]> (uf_fa u).
  Proof.
    intros [HL HS] Ex Ey Hne. pose proof (lb_inv _ _ _ HL) as I.
    assert (x < n) as Hx by (rewrite <- (ui_fa _ _ I); eapply lookup_lt_Some; exact Ex). assert (y < n) as Hy by (rewrite <- (ui_fa _ _ I); eapply lookup_lt_Some; exact Ey).
    assert (root (uf_fa u) x x) as Rx by (exists 0; constructor; exact Ex). assert (root (uf_fa u) y y) as Ry by (exists 0; constructor; exact Ey).
    assert (forall u i, UInv n u -> uf_fa u !! i = Some i -> uf_find u i = Ok (u, i) /\ forall w, uf_findW u i w = Ok ((u, i), w + 1)) as HF.
    { intros v i _ E. unfold uf_find, uf_findW. cbn [uf_find_fa uf_find_faW]. rewrite (vget_ok _ _ _ E). unfold ebind, tick, elift, eret. cbn [mbind res_bind]. rewrite Nat.eqb_refl. destruct v. auto. }
    destruct (HF u x I Ex) as [Fx Wx]. destruct (HF u y I Ey) as [Fy Wy].
    assert (join_of_reps lab (UfJoin x y)) as J by (intros _ _; split; apply (lab_iff n u lab); auto).
    pose proof (join_step n u lab x y Hn HL HS J) as Hst. destruct (sizes_join n u x y I Hn HS Hx Hy Rx Ry) as (u' & b & E & HS').
    rewrite E in Hst. destruct Hst as (lab' & Sp & L' & _).
    exists u', lab'.
    unfold uf_join in E. rewrite (ui_n _ _ I) in E. rewrite (proj2 (Nat.ltb_lt x n)), (proj2 (Nat.ltb_lt y n)) in E by assumption. cbn [rassert mbind res_bind] in E.
    rewrite Fx in E. cbn [mbind res_bind] in E. rewrite Fy in E. cbn [mbind res_bind] in E. pose proof Hne as Hne'. apply Nat.eqb_neq in Hne'. rewrite Hne' in E.
    apply rbind_ok_inv in E as (sx & E1 & E). apply rbind_ok_inv in E as (sy & E2 & E). destruct (if (sy <? sx)%Z then (y, x) else (x, y)) as [fx fy] eqn:Esw.
    apply rbind_ok_inv in E as (fa & E3 & E). apply rbind_ok_inv in E as (s & E4 & E). apply rbind_ok_inv in E as (sz & E5 & E). injection E as <- <-.
    split; [|split; [split; assumption|]].
    - change 2 with (2 + 0). econstructor; [exact J|exact Sp| | |constructor]; cbn [uf_step uf_stepW].
      + unfold uf_join. rewrite (ui_n _ _ I). rewrite (proj2 (Nat.ltb_lt x n)), (proj2 (Nat.ltb_lt y n)) by assumption. cbn [rassert mbind res_bind].
        rewrite Fx. cbn [mbind res_bind]. rewrite Fy. cbn [mbind res_bind]. rewrite Hne', E1. cbn [mbind res_bind]. rewrite E2. cbn [mbind res_bind]. rewrite Esw, E3. cbn [mbind res_bind].
        rewrite E4. cbn [mbind res_bind]. rewrite E5. rewrite (ui_n _ _ I). reflexivity.
      + intros w. unfold uf_joinW. rewrite (ui_n _ _ I). rewrite (proj2 (Nat.ltb_lt x n)), (proj2 (Nat.ltb_lt y n)) by assumption. unfold ebind, elift, eret. cbn [rassert mbind res_bind].
        rewrite Wx. cbn [mbind res_bind]. rewrite Wy. cbn [mbind res_bind]. rewrite Hne', E1. cbn [mbind res_bind]. rewrite E2. cbn [mbind res_bind]. rewrite Esw, E3. cbn [mbind res_bind].
        rewrite E4. cbn [mbind res_bind]. rewrite E5. cbn [mbind res_bind]. rewrite (ui_n _ _ I). f_equal. f_equal. lia.
    - cbn [uf_fa]. rewrite vset_ok in E3 by (rewrite (ui_fa _ _ I); exact Hx). congruence.
  Qed.
  Lemma good_find u lab i d r : good u lab -> rootof (uf_fa u) d i r ->
    exists u', plays u lab [UfFind i] (S d) u' lab /\ good u' lab /\ (forall v, reach (uf_fa u) i v -> uf_fa u' !! v = Some r) /\ (forall v, ~ reach (uf_fa u) i v -> uf_fa u' !! v = uf_fa u !! v).
  Proof.
    intros [HL HS] Rd. pose proof (lb_inv _ _ _ HL) as I. assert (i < n) as Hi by (rewrite <- (ui_fa _ _ I); apply (rootof_lt _ _ _ _ Rd)).
    destruct (find_calls n u i I Hi) as (d' & r' & u' & Rd' & E & W & I' & Sr & On & Off & Sz & _). destruct (rootof_det _ _ _ _ Rd _ _ Rd') as [<- <-].
    exists u'. split; [|split; [split; [apply (lab_same n u); assumption|apply (sizes_same n u u'); assumption]|auto]].
    rewrite <- (Nat.add_0_r (S d)). econstructor; [exact Logic.I| | | |constructor]; cbn [uf_step uf_stepW uf_spec_step].
    - rewrite (proj2 (lab_iff n u lab i r HL)) by (split; [exact Hi|exists d; exact Rd]). reflexivity.
    - rewrite E. reflexivity.
    - intros w. unfold ebind. rewrite W. reflexivity.
  Qed.
  Lemma good_new : good (uf_new n) (seq 0 n).
  Proof. split; [apply lab_new|apply sizes_new]. Qed.

  (** ** A path *)
  Lemma chain_plays k : S k <= n -> exists u lab, plays (uf_new n) (seq 0 n) (chain_joins k) (2 * k) u lab /\ good u lab /\
    (forall i, i < k -> uf_fa u !! i = Some (S i)) /\ (forall i, k <= i -> i < n -> uf_fa u !! i = Some i).
  Proof.
    induction k as [|k IH]; intros Hk.
    - exists (uf_new n), (seq 0 n). split; [constructor|]. split; [exact good_new|]. split; [lia|]. intros i _ Hi. cbn. apply lookup_seq_lt. exact Hi.
    - destruct (IH ltac:(lia)) as (u & lab & P & G & H1 & H2). destruct (good_join u lab k (S k) G (H2 k ltac:(lia) ltac:(lia)) (H2 (S k) ltac:(lia) ltac:(lia)) ltac:(lia)) as (u' & lab' & P' & G' & E).
      exists u', lab'. split; [|split; [exact G'|]].
      + unfold chain_joins. rewrite seq_S, map_app. replace (2 * S k) with (2 * k + 2) by lia. eapply plays_app; [exact P|]. exact P'.
      + rewrite E. assert (length (uf_fa u) = n) as Ln by (apply ui_fa; apply (lb_inv _ _ _ (proj1 G))). split.
        * intros i Hi. destruct (decide (i = k)) as [->|Hik]; [apply list_lookup_insert; lia|]. rewrite list_lookup_insert_ne by congruence. apply H1. lia.
        * intros i Hi Hin. rewrite list_lookup_insert_ne by lia. apply H2; lia.
  Qed.
  Lemma chain_depth fa k : (forall i, i < k -> fa !! i = Some (S i)) -> fa !! k = Some k -> forall j, j <= k -> rootof fa j (k - j) k.
  Proof.
    clear Hn n. intros H1 H2. induction j as [|j IH]; intros Hj; [rewrite Nat.sub_0_r; constructor; exact H2|].
    apply (ro_step _ j (k - S j) (k - j)); [rewrite H1 by lia; f_equal; lia|lia|apply IH; lia].
  Qed.

  (** ** Binomial trees *)
  Inductive tr := Leaf (v : nat) | Link (t1 t2 : tr).
  Fixpoint top (t : tr) : nat := match t with Leaf v => v | Link _ t2 => top t2 end.
  Fixpoint bottom (t : tr) : nat := match t with Leaf v => v | Link t1 _ => bottom t1 end.
  Fixpoint labels (t : tr) : list nat := match t with Leaf v => [v] | Link t1 t2 => labels t1 ++ labels t2 end.
  Fixpoint spine (t : tr) : list nat := match t with Leaf v => [v] | Link t1 t2 => spine t1 ++ [top t2] end.
  Fixpoint shaped (k : nat) (t : tr) : Prop := match k, t with 0, Leaf _ => True | S k, Link t1 t2 => shaped k t1 /\ shaped k t2 | _, _ => False end.
  Fixpoint sits (fa : list nat) (t : tr) : Prop := match t with Leaf _ => True | Link t1 t2 => sits fa t1 /\ sits fa t2 /\ fa !! top t1 = Some (top t2) end.
  (** The tree after a search from the bottom of t, whose top hangs below r *)
  Fixpoint re (r : nat) (t : tr) : tr := match t with Leaf v => Leaf r | Link t1 t2 => Link t2 (re r t1) end.

  Lemma top_in t : top t ∈ labels t.
  Proof. induction t as [v|t1 IH1 t2 IH2]; cbn; [constructor|]. apply elem_of_app. auto. Qed.
  Lemma top_spine t : top t ∈ spine t.
  Proof. destruct t as [v|t1 t2]; cbn; [constructor|]. apply elem_of_app. right. constructor. Qed.
  Lemma spine_in t v : v ∈ spine t -> v ∈ labels t.
  Proof. induction t as [w|t1 IH1 t2 IH2]; cbn; [auto|]. rewrite !elem_of_app. intros [H|H]; [auto|]. apply elem_of_list_singleton in H as ->. right. apply top_in. Qed.
  Lemma re_top r t : top (re r t) = r.
  Proof. induction t as [v|t1 IH1 t2 IH2]; cbn; auto. Qed.
  Lemma re_shaped r t : forall k, shaped k t -> shaped k (re r t).
  Proof. induction t as [v|t1 IH1 t2 IH2]; intros [|k]; cbn; auto. intros [H1 H2]. auto. Qed.
  Lemma re_labels r t v : v ∈ labels (re r t) -> v = r \/ v ∈ labels t.
  Proof. induction t as [w|t1 IH1 t2 IH2]; cbn; [rewrite elem_of_list_singleton; auto|]. rewrite !elem_of_app. intros [H|H]; [auto|]. destruct (IH1 H); auto. Qed.
  Lemma re_nodup r t : NoDup (labels t) -> r ∉ labels t -> NoDup (labels (re r t)).
  Proof.
    induction t as [w|t1 IH1 t2 IH2]; cbn; intros ND Hr; [apply NoDup_singleton|]. apply NoDup_app in ND as (N1 & N12 & N2). rewrite elem_of_app in Hr. apply NoDup_app.
    split; [exact N2|]. split; [|apply IH1; [exact N1|tauto]]. intros v Hv Hv'. apply re_labels in Hv' as [->|Hv']; [tauto|]. exact (N12 v Hv' Hv).
  Qed.
  Lemma sits_change fa fa' t : NoDup (labels t) -> sits fa t -> (forall c, c ∈ labels t -> c <> top t -> fa' !! c = fa !! c) -> sits fa' t.
  Proof.
    induction t as [w|t1 IH1 t2 IH2]; cbn; intros ND S H; [auto|]. apply NoDup_app in ND as (N1 & N12 & N2). destruct S as (S1 & S2 & E).
    assert (forall c, c ∈ labels t1 -> fa' !! c = fa !! c) as H1.
    { intros c Hc. apply H; [apply elem_of_app; auto|]. intros ->. apply (N12 _ Hc), top_in. }
    split; [apply IH1; auto|]. split; [apply IH2; [exact N2|exact S2|]; intros c Hc Hct; apply H; [apply elem_of_app; auto|exact Hct]|]. rewrite H1 by apply top_in. exact E.
  Qed.
  Lemma depth_bottom fa t : NoDup (labels t) -> sits fa t -> forall k d r, shaped k t -> rootof fa d (top t) r -> rootof fa (k + d) (bottom t) r.
  Proof.
    induction t as [w|t1 IH1 t2 IH2]; cbn [labels sits shaped top bottom]; intros ND S [|k] d r Sh Rt; try contradiction; [exact Rt|]. apply NoDup_app in ND as (N1 & N12 & N2). destruct S as (S1 & S2 & E).
    replace (S k + d) with (k + S d) by lia. apply IH1; [exact N1|exact S1|apply Sh|]. apply (ro_step _ d (top t1) (top t2)); [exact E| |exact Rt].
    intros E'. apply (N12 (top t1)); [apply top_in|rewrite <- E'; apply top_in].
  Qed.
  Lemma reach_bottom fa t v : sits fa t -> reach fa (bottom t) v -> v ∈ spine t \/ reach fa (top t) v.
  Proof.
    induction t as [w|t1 IH1 t2 IH2]; cbn [sits bottom spine top]; intros S R; [auto|]. destruct S as (S1 & S2 & E). rewrite elem_of_app. destruct (IH1 S1 R) as [H|H]; [auto|].
    inversion H as [|? j ? E' Hne R']; subst; [left; left; apply top_spine|]. right. replace (top t2) with j by congruence. exact R'.
  Qed.
  Lemma spine_reach fa t : NoDup (labels t) -> sits fa t -> (forall v, v ∈ labels t -> v < length fa) -> forall v, v ∈ spine t -> reach fa (bottom t) v.
  Proof.
    assert (forall t, NoDup (labels t) -> sits fa t -> forall v, reach fa (top t) v -> reach fa (bottom t) v) as HB.
    { clear t. induction t as [w|t1 IH1 t2 IH2]; cbn [labels sits top bottom]; intros ND S v R; [exact R|]. apply NoDup_app in ND as (N1 & N12 & N2). destruct S as (S1 & S2 & E).
      apply IH1; [exact N1|exact S1|]. econstructor; [exact E| |exact R]. intros E'. apply (N12 (top t1)); [apply top_in|rewrite <- E'; apply top_in]. }
    induction t as [w|t1 IH1 t2 IH2]; intros ND S Hl v Hv.
    - cbn in *. apply elem_of_list_singleton in Hv as ->. constructor. apply Hl. constructor.
    - cbn [spine] in Hv. apply elem_of_app in Hv as [Hv|Hv].
      + cbn in *. apply NoDup_app in ND as (N1 & N12 & N2). destruct S as (S1 & S2 & E). apply IH1; [exact N1|exact S1| |exact Hv]. intros c Hc. apply Hl. apply elem_of_app. auto.
      + apply elem_of_list_singleton in Hv as ->. apply HB; [exact ND|exact S|]. cbn [top]. constructor. apply Hl. cbn. apply elem_of_app. right. apply top_in.
  Qed.
  (** The new tree sits in the new array. *)
  Lemma re_sits fa' fa t r : NoDup (labels t) -> r ∉ labels t -> sits fa t -> (forall v, v ∈ spine t -> fa' !! v = Some r) ->
    (forall v, v ∈ labels t -> v ∉ spine t -> fa' !! v = fa !! v) -> sits fa' (re r t).
  Proof.
    induction t as [w|t1 IH1 t2 IH2]; cbn [labels sits spine re]; intros ND Hr S On Off; [exact I|]. apply NoDup_app in ND as (N1 & N12 & N2). rewrite elem_of_app in Hr. destruct S as (S1 & S2 & E).
    split; [|split].
    - apply (sits_change fa); [exact N2|exact S2|]. intros c Hc Hct. apply Off; [apply elem_of_app; auto|]. rewrite elem_of_app, elem_of_list_singleton. intros [H|H]; [|contradiction].
      apply (N12 c); [apply spine_in; exact H|exact Hc].
    - apply IH1; [exact N1|tauto|exact S1| |].
      + intros v Hv. apply On. apply elem_of_app. auto.
      + intros v Hv Hs. apply Off; [apply elem_of_app; auto|]. rewrite elem_of_app, elem_of_list_singleton. intros [H| ->]; [contradiction|]. apply (N12 _ Hv), top_in.
    - rewrite re_top. apply On. apply elem_of_app. right. constructor.
  Qed.

  (** ** Building one, and searching it again and again *)
  Fixpoint bt (k b : nat) : tr := match k with 0 => Leaf b | S k => Link (bt k b) (bt k (b + 2 ^ k)) end.
  Fixpoint build (k b : nat) : list uf_op := match k with 0 => [] | S k => build k b ++ build k (b + 2 ^ k) ++ [UfJoin (top (bt k b)) (top (bt k (b + 2 ^ k)))] end.
  Fixpoint rounds (m : nat) (t : tr) (r : nat) : list uf_op := match m with 0 => [] | S m => [UfJoin (top t) r] ++ [UfFind (bottom t)] ++ rounds m (re r t) (S r) end.

  Lemma build_len k : forall b, length (build k b) + 1 = 2 ^ k.
  Proof. clear Hn n. induction k as [|k IH]; intros b; [reflexivity|]. cbn [build]. rewrite !app_length. cbn [length]. pose proof (IH b). pose proof (IH (b + 2 ^ k)). rewrite Nat.pow_succ_r'. lia. Qed.
  Lemma rounds_len m : forall t r, length (rounds m t r) = 2 * m.
  Proof. clear Hn n. induction m as [|m IH]; intros t r; [reflexivity|]. cbn [rounds app length]. rewrite IH. lia. Qed.
  Lemma bt_labels k : forall b, labels (bt k b) = seq b (2 ^ k).
  Proof. clear Hn n. induction k as [|k IH]; intros b; [reflexivity|]. cbn [bt labels]. rewrite !IH, <- seq_app. rewrite Nat.pow_succ_r'. f_equal. lia. Qed.
  Lemma bt_shaped k : forall b, shaped k (bt k b).
  Proof. induction k as [|k IH]; intros b; cbn; auto. Qed.

  Lemma build_plays k : forall b u lab, good u lab -> b + 2 ^ k <= n -> (forall v, b <= v -> v < b + 2 ^ k -> uf_fa u !! v = Some v) ->
    exists c u' lab', plays u lab (build k b) c u' lab' /\ good u' lab' /\ sits (uf_fa u') (bt k b) /\ uf_fa u' !! top (bt k b) = Some (top (bt k b)) /\
      (forall v, v < b \/ b + 2 ^ k <= v -> uf_fa u' !! v = uf_fa u !! v).
  Proof.
    induction k as [|k IH]; intros b u lab G Hb Hid.
    - exists 0, u, lab. change (2 ^ 0) with 1 in *. cbn [build bt sits top]. split; [constructor|]. split; [exact G|]. split; [exact I|]. split; [apply Hid; lia|auto].
    - rewrite Nat.pow_succ_r' in *. cbn [build bt].
      destruct (IH b u lab G ltac:(lia)) as (c1 & u1 & lab1 & P1 & G1 & S1 & T1 & O1); [intros v Hv1 Hv2; apply Hid; lia|].
      destruct (IH (b + 2 ^ k) u1 lab1 G1 ltac:(lia)) as (c2 & u2 & lab2 & P2 & G2 & S2 & T2 & O2); [intros v Hv1 Hv2; rewrite O1 by lia; apply Hid; lia|].
      set (t1 := bt k b) in *. set (t2 := bt k (b + 2 ^ k)) in *.
      assert (forall v, v ∈ labels t1 -> b <= v /\ v < b + 2 ^ k) as L1 by (intros v Hv; unfold t1 in Hv; rewrite bt_labels in Hv; apply elem_of_seq in Hv; lia).
      assert (forall v, v ∈ labels t2 -> b + 2 ^ k <= v /\ v < b + 2 * 2 ^ k) as L2 by (intros v Hv; unfold t2 in Hv; rewrite bt_labels in Hv; apply elem_of_seq in Hv; lia).
      pose proof (L1 _ (top_in t1)) as B1. pose proof (L2 _ (top_in t2)) as B2.
      destruct (good_join u2 lab2 (top t1) (top t2) G2) as (u3 & lab3 & P3 & G3 & E); [rewrite O2 by lia; exact T1|exact T2|lia|].
      assert (length (uf_fa u2) = n) as Ln by (apply ui_fa; apply (lb_inv _ _ _ (proj1 G2))).
      exists (c1 + (c2 + 2)), u3, lab3. split; [eapply plays_app; [exact P1|]; eapply plays_app; [exact P2|exact P3]|]. split; [exact G3|]. rewrite E. cbn [top sits]. split; [split; [|split]|split].
      + apply (sits_change (uf_fa u1)); [unfold t1; rewrite bt_labels; apply NoDup_seq|exact S1|]. intros c Hc Hct. rewrite list_lookup_insert_ne by congruence. specialize (L1 c Hc). apply O2. lia.
      + apply (sits_change (uf_fa u2)); [unfold t2; rewrite bt_labels; apply NoDup_seq|exact S2|]. intros c Hc Hct. rewrite list_lookup_insert_ne; [reflexivity|]. specialize (L2 c Hc). lia.
      + apply list_lookup_insert. lia.
      + rewrite list_lookup_insert_ne by lia. exact T2.
      + intros v Hv. rewrite list_lookup_insert_ne by lia. rewrite O2 by lia. apply O1. lia.
  Qed.
  Lemma rounds_plays k m : forall t r u lab, good u lab -> shaped k t -> NoDup (labels t) -> (forall v, v ∈ labels t -> v < r) -> sits (uf_fa u) t -> uf_fa u !! top t = Some (top t) ->
    (forall v, r <= v -> v < n -> uf_fa u !! v = Some v) -> r + m <= n -> exists u' lab', plays u lab (rounds m t r) (m * (k + 4)) u' lab'.
  Proof.
    induction m as [|m IH]; intros t r u lab G Sh ND Lb S T Id Hm; [eexists _, _; constructor|]. cbn [rounds].
    pose proof (Lb _ (top_in t)) as Ht. assert (length (uf_fa u) = n) as Ln by (apply ui_fa; apply (lb_inv _ _ _ (proj1 G))).
    assert (r ∉ labels t) as Hr by (intros H; specialize (Lb r H); lia).
    destruct (good_join u lab (top t) r G T (Id r ltac:(lia) ltac:(lia)) ltac:(lia)) as (u1 & lab1 & P1 & G1 & E1).
    assert (sits (uf_fa u1) t) as S1 by (apply (sits_change (uf_fa u)); [exact ND|exact S|]; intros c _ Hc; rewrite E1; apply list_lookup_insert_ne; congruence).
    assert (uf_fa u1 !! top t = Some r) as T1 by (rewrite E1; apply list_lookup_insert; lia).
    assert (forall v, r <= v -> v < n -> uf_fa u1 !! v = Some v) as Id1 by (intros v H1 H2; rewrite E1, list_lookup_insert_ne by lia; apply Id; assumption).
    assert (rootof (uf_fa u1) (k + 1) (bottom t) r) as Rb.
    { apply depth_bottom; [exact ND|exact S1|exact Sh|]. apply (ro_step _ 0 (top t) r); [exact T1|lia|]. constructor. apply Id1; lia. }
    destruct (good_find u1 lab1 (bottom t) (k + 1) r G1 Rb) as (u2 & P2 & G2 & On & Off).
    assert (forall v, reach (uf_fa u1) (bottom t) v -> v ∈ spine t \/ v = r) as Rs.
    { intros v R. destruct (reach_bottom _ _ _ S1 R) as [H|H]; [auto|]. inversion H as [|? j ? E Hne R']; subst; [left; apply top_spine|]. assert (j = r) as -> by congruence.
      inversion R' as [|? j ? E' Hne' R2]; subst; [auto|]. rewrite Id1 in E' by lia. congruence. }
    destruct (IH (re r t) (Datatypes.S r) u2 lab1 G2) as (u3 & lab3 & P3).
    - apply re_shaped. exact Sh.
    - apply re_nodup; assumption.
    - intros v Hv. apply re_labels in Hv as [->|Hv]; [lia|]. specialize (Lb v Hv). lia.
    - apply (re_sits (uf_fa u2) (uf_fa u1)); [exact ND|exact Hr|exact S1| |].
      + intros v Hv. apply On. apply spine_reach; [exact ND|exact S1| |exact Hv]. intros c Hc. specialize (Lb c Hc). rewrite E1, insert_length. lia.
      + intros v Hv Hs. apply Off. intros R. destruct (Rs v R) as [Hv2| ->]; [contradiction|]. contradiction.
    - rewrite re_top. apply On. pose proof (spine_reach _ _ ND S1 ltac:(intros c Hc; specialize (Lb c Hc); rewrite E1, insert_length; lia) _ (top_spine t)) as R.
      clear - R T1 Ht Id1 Hm. assert (forall i v, reach (uf_fa u1) i v -> forall w, reach (uf_fa u1) v w -> reach (uf_fa u1) i w) as HT.
      { induction 1 as [i Hi|i j v E Hne R' IH]; intros w Rw; [exact Rw|]. econstructor; eauto. }
      apply (HT _ _ R). econstructor; [exact T1|lia|]. constructor. eapply lookup_lt_Some. apply Id1; lia.
    - intros v H1 H2. rewrite Off; [apply Id1; lia|]. intros R. destruct (Rs v R) as [H| ->]; [|lia]. apply spine_in in H. specialize (Lb v H). lia.
    - lia.
    - exists u3, lab3. replace (Datatypes.S m * (k + 4)) with (2 + (Datatypes.S (k + 1) + m * (k + 4))) by lia. eapply plays_app; [exact P1|]. eapply plays_app; [exact P2|exact P3].
  Qed.
End plays.
