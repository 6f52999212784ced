(** Tarjan's search: how deep the calls nest. *)
From stdpp Require Import relations.
From Verif Require Import Prelude Eff IntModel TreeSpec SccModel DinicProof SccProof TreeNestProof GraphNestModel GraphNestSpec.
Open Scope Z_scope.

Lemma walk_snoc g u v w l : walk g u v l -> edge g v w -> walk g u w (l ++ [w]).
Proof.
  induction 1 as [u|u x v l Hx _ IH]; intros He; cbn.
  - eapply walk_cons; [exact He|apply walk_nil].
  - eapply walk_cons; [exact Hx|apply IH; exact He].
Qed.

Lemma edge_upto (r r' : nat -> tj -> res tj) u v st : (forall st, upto (r v st) (r' v st)) -> upto (edge_body r u v st) (edge_body r' u v st).
Proof.
  intros H. unfold edge_body. apply upto_same. intros o. apply upto_bind; [destruct (o =? -1); [apply H|apply upto_refl]|]. intros st1. apply upto_refl.
Qed.
Lemma tdfs_upto g j : forall fuel u st, upto (tdfs fuel g u st) (tdfs (fuel + j) g u st).
Proof.
  induction fuel as [|fuel IH]; intros u st; [left; reflexivity|]. cbn [Nat.add tdfs]. apply upto_same. intros st1. apply upto_same. intros es. apply upto_bind; [|intros st2; apply upto_refl].
  apply upto_for. intros v s. apply edge_upto. intros s'. apply IH.
Qed.

Section Scc.
  Context (g : list (list nat)).
  Definition seen (st : tj) (x : nat) : Prop := 0 <= hl (tj_ord st) x.
  (** What a search keeps *)
  Definition grows (st st' : tj) : Prop := 0 <= tj_pos st' /\ (forall x, -1 <= hl (tj_ord st') x) /\ length (tj_ord st') = length (tj_ord st) /\ forall x, seen st x -> seen st' x.
  Definition sane (st : tj) : Prop := 0 <= tj_pos st /\ forall x, -1 <= hl (tj_ord st) x.
  Lemma grows_refl st : sane st -> grows st st.
  Proof. intros []. repeat split; auto. Qed.
  Lemma grows_sane st st' : grows st st' -> sane st'.
  Proof. intros (H1 & H2 & _). split; assumption. Qed.
  Lemma grows_trans a b c : grows a b -> grows b c -> grows a c.
  Proof. intros (A1 & A2 & A3 & A4) (B1 & B2 & B3 & B4). repeat split; auto. congruence. Qed.

  Lemma enter_grows u st st' : sane st -> tj_enter u st = Ok st' -> grows st st' /\ seen st' u /\ forall x, seen st' x -> x = u \/ seen st x.
  Proof.
    intros [Hp Hs] E. unfold tj_enter in E. apply rbind_ok_inv in E as (ord & E1 & E). apply rbind_ok_inv in E as (low & _ & E). apply rbind_ok_inv in E as (pos & E2 & E).
    apply rbind_ok_inv in E as (ons & _ & E). injection E as <-. unfold vset in E1. case_decide as Hl; [|discriminate]. injection E1 as <-.
    assert (0 <= pos) as Hp'. { unfold iadd, chk in E2. case_match; [|discriminate]. injection E2 as <-. lia. }
    assert (forall x, hl (<[u:=tj_pos st]> (tj_ord st)) x = if decide (x = u) then tj_pos st else hl (tj_ord st) x) as Hi by (intros x; apply hl_insert; exact Hl).
    unfold grows, seen. cbn [tj_pos tj_ord]. rewrite insert_length. split; [|split].
    - repeat split; auto; intros x; rewrite Hi; case_decide; auto; try lia; apply Hs.
    - rewrite Hi, decide_True by reflexivity. exact Hp.
    - intros x. rewrite Hi. case_decide; auto.
  Qed.
  Lemma leave_ord u st st' : tj_leave u st = Ok st' -> tj_ord st' = tj_ord st /\ tj_pos st' = tj_pos st.
  Proof.
    intros E. unfold tj_leave in E. apply rbind_ok_inv in E as (lu & _ & E). apply rbind_ok_inv in E as (ou & _ & E). destruct (lu =? ou); [|injection E as <-; auto].
    apply rbind_ok_inv in E as ([[stk ons] comp] & _ & E). injection E as <-. auto.
  Qed.
  Lemma ord_grows st st' : sane st -> tj_ord st' = tj_ord st -> tj_pos st' = tj_pos st -> grows st st'.
  Proof. intros [H1 H2] E1 E2. unfold grows, seen. rewrite E1, E2. repeat split; auto. Qed.

  (** Within d edges of u *)
  Definition near (u x d : nat) : Prop := exists l, walk g u x l /\ (length l <= S d)%nat.
  Lemma edge_tail u v (rec : nat -> tj -> res tj) st st' : edge_body rec u v st = Ok st' ->
    exists o st1, tj_ord st !! v = Some o /\ (if o =? -1 then rec v st else Ok st) = Ok st1 /\ tj_ord st' = tj_ord st1 /\ tj_pos st' = tj_pos st1.
  Proof.
    intros E. unfold edge_body in E. apply rbind_ok_inv in E as (o & Eo & E). apply vget_ok_iff in Eo. apply rbind_ok_inv in E as (st1 & E1 & E). exists o, st1. split; [exact Eo|]. split; [exact E1|].
    apply rbind_ok_inv in E as (b & _ & E). destruct b; [|injection E as <-; auto].
    apply rbind_ok_inv in E as (lu & _ & E). apply rbind_ok_inv in E as (lv & _ & E). apply rbind_ok_inv in E as (low & _ & E). injection E as <-. auto.
  Qed.
  Lemma unseen st x : sane st -> tj_ord st !! x = Some (-1) -> ~ seen st x.
  Proof. intros _ H. unfold seen, hl. rewrite H. lia. Qed.

  (** A search with room for k calls sees only vertices within k - 1 edges *)
  Lemma tdfs_near fuel : forall u st st', sane st -> tdfs fuel g u st = Ok st' ->
    grows st st' /\ seen st' u /\ forall x, seen st' x -> seen st x \/ exists l, walk g u x l /\ (length l <= fuel)%nat.
  Proof.
    induction fuel as [|fuel IH]; intros u st st' Hs E; cbn [tdfs] in E; [discriminate|]. apply rbind_ok_inv in E as (st1 & E1 & E). destruct (enter_grows u st st1 Hs E1) as (G1 & U1 & N1).
    apply rbind_ok_inv in E as (es & Ees & E). apply vget_ok_iff in Ees. apply rbind_ok_inv in E as (st2 & E2 & E). destruct (leave_ord _ _ _ E) as [L1 L2].
    assert (forall xs, (forall v, v ∈ xs -> v ∈ es) -> forall s s', sane s -> rfor xs (edge_body (tdfs fuel g) u) s = Ok s' ->
      grows s s' /\ forall x, seen s' x -> seen s x \/ exists l, walk g u x l /\ (length l <= S fuel)%nat) as HL.
    { induction xs as [|v xs IHx]; intros Hxs s s' Is Ex; cbn [rfor] in Ex.
      - injection Ex as <-. split; [apply grows_refl; exact Is|auto].
      - apply rbind_ok_inv in Ex as (s1 & Eb & Ex). destruct (edge_tail _ _ _ _ _ Eb) as (o & s0 & Ho & E0 & O1 & O2).
        assert (grows s s0 /\ forall x, seen s0 x -> seen s x \/ exists l, walk g u x l /\ (length l <= S fuel)%nat) as [G0 N0].
        { destruct (Z.eqb_spec o (-1)) as [->|]; [|injection E0 as <-; split; [apply grows_refl; exact Is|auto]]. destruct (IH v s s0 Is E0) as (G & _ & N). split; [exact G|].
          intros x Hx. destruct (N x Hx) as [|(l & Hl & Hk)]; [auto|]. right. exists (u :: l). split; [|cbn [length]; lia]. eapply walk_cons; [|exact Hl]. exists es. split; [exact Ees|].
          apply Hxs. left. }
        pose proof (ord_grows s0 s1 (grows_sane _ _ G0) O1 O2) as G2. destruct (IHx (fun w Hw => Hxs w (elem_of_list_further _ _ _ Hw)) s1 s' (grows_sane _ _ G2) Ex) as [G3 N3].
        split; [eapply grows_trans; [exact G0|eapply grows_trans; [exact G2|exact G3]]|]. intros x Hx. destruct (N3 x Hx) as [H1|]; [|auto]. apply N0. unfold seen in *. rewrite O1 in H1. exact H1. }
    destruct (HL es (fun v Hv => Hv) st1 st2 (grows_sane _ _ G1) E2) as [G2 N2]. pose proof (ord_grows st2 st' (grows_sane _ _ G2) L1 L2) as G3.
    assert (grows st st') as G by (eapply grows_trans; [exact G1|eapply grows_trans; [exact G2|exact G3]]). split; [exact G|]. split.
    - destruct G2 as (_ & _ & _ & G2), G3 as (_ & _ & _ & G3). auto.
    - intros x Hx. assert (seen st2 x) as Hx2 by (unfold seen in *; rewrite L1 in Hx; exact Hx). destruct (N2 x Hx2) as [H1|]; [|auto]. destruct (N1 x H1) as [->|]; [|auto].
      right. exists [u]. split; [apply walk_nil|cbn; lia].
  Qed.

  (** With room for the rest of every path, more room changes nothing; p is the path of the calls under way *)
  Lemma tdfs_same j : forall fuel a p u st, sane st -> walk g a u (p ++ [u]) -> NoDup p -> (forall x, x ∈ p -> seen st x) -> tj_ord st !! u = Some (-1) -> paths_upto g (length p + fuel) ->
    tdfs fuel g u st = tdfs (fuel + j) g u st.
  Proof.
    induction fuel as [|fuel IH]; intros a p u st Hs Hw Hnd Hp Hu Hk.
    - exfalso. specialize (Hk a u (p ++ [u]) Hw). rewrite app_length in Hk. cbn [length] in Hk. enough (length p + 1 <= length p + 0)%nat by lia. apply Hk. apply NoDup_app. split; [exact Hnd|]. split; [|apply NoDup_singleton].
      intros x Hx ->%elem_of_list_singleton. apply (unseen st u Hs Hu). auto.
    - cbn [Nat.add tdfs]. destruct (tj_enter u st) as [st1| |] eqn:E1; cbn [mbind res_bind]; [|reflexivity|reflexivity]. destruct (enter_grows u st st1 Hs E1) as (G1 & U1 & N1).
      destruct (vget g u) as [es| |] eqn:Ees; cbn [mbind res_bind]; [|reflexivity|reflexivity]. apply vget_ok_iff in Ees. f_equal.
      apply (rfor_eq (fun s => sane s /\ forall x, x ∈ p ++ [u] -> seen s x)).
      + intros v s Hv [Is Ps]. unfold edge_body. destruct (vget (tj_ord s) v) as [o| |] eqn:Eo; cbn [mbind res_bind]; [|reflexivity|reflexivity]. apply vget_ok_iff in Eo.
        destruct (Z.eqb_spec o (-1)) as [->|]; [|reflexivity]. f_equal. apply (IH a (p ++ [u])); auto.
        * apply walk_snoc with u; [exact Hw|]. exists es. auto.
        * apply NoDup_app. split; [exact Hnd|]. split; [|apply NoDup_singleton]. intros x Hx ->%elem_of_list_singleton. apply (unseen st u Hs Hu). auto.
        * rewrite app_length. cbn [length]. replace (length p + 1 + fuel)%nat with (length p + S fuel)%nat by lia. exact Hk.
      + intros v s s' Hv [Is Ps] Eb. destruct (edge_tail _ _ _ _ _ Eb) as (o & s0 & Ho & E0 & O1 & O2).
        assert (grows s s0) as G0 by (destruct (o =? -1); [eapply tdfs_near; eassumption|injection E0 as <-; apply grows_refl; exact Is]).
        pose proof (ord_grows s0 s' (grows_sane _ _ G0) O1 O2) as G2. split; [exact (grows_sane _ _ G2)|]. intros x Hx. destruct G0 as (_ & _ & _ & G0), G2 as (_ & _ & _ & G2). auto.
      + split; [exact (grows_sane _ _ G1)|]. intros x [Hx| ->%elem_of_list_singleton]%elem_of_app; [|exact U1]. destruct G1 as (_ & _ & _ & G1). auto.
  Qed.
  Lemma new_sane n : sane (tj_new n).
  Proof.
    split; [reflexivity|]. intros x. cbn [tj_ord tj_new]. unfold hl. destruct (replicate n (-1) !! x) eqn:E; [|lia]. apply lookup_replicate in E as [-> _]. lia.
  Qed.

  Lemma scc_same k j : paths_upto g k -> scc_stack k g = scc_stack (k + j) g.
  Proof.
    intros Hk. unfold scc_stack. f_equal. apply (rfor_eq sane); [| |apply new_sane].
    - intros i s Hi Is. destruct (vget (tj_ord s) i) as [o| |] eqn:Eo; cbn [mbind res_bind]; [|reflexivity|reflexivity]. apply vget_ok_iff in Eo. destruct (Z.eqb_spec o (-1)) as [->|]; [|reflexivity].
      apply (tdfs_same j k i [] i s Is); auto; [apply walk_nil|constructor|]. intros x Hx. inversion Hx.
    - intros i s s' Hi Is E. apply rbind_ok_inv in E as (o & _ & E). destruct (o =? -1); [|injection E as <-; exact Is]. apply tdfs_near in E as (G & _); [|exact Is]. exact (grows_sane _ _ G).
  Qed.
  Lemma scc_stack_scc : scc g = scc_stack (S (length g)) g.
  Proof. reflexivity. Qed.
  (** A path without repetition stays within the vertices, except its end *)
  Lemma walk_lt u v l : walk g u v l -> (forall x y, edge g x y -> (y < length g)%nat) -> (u < length g)%nat -> forall x, x ∈ l -> (x < length g)%nat.
  Proof.
    intros Hw He. induction Hw as [u|u w v l Hx _ IH]; intros Hu x Hin.
    - apply elem_of_list_singleton in Hin as ->. exact Hu.
    - apply elem_of_cons in Hin as [->|Hin]; [exact Hu|]. apply IH; [eapply He; exact Hx|exact Hin].
  Qed.
  Lemma walk_first u v l : walk g u v l -> (u < length g)%nat \/ l = [u].
  Proof. intros Hw. destruct Hw as [u|u w v l (es & Hes & _) _]; [auto|]. left. eapply lookup_lt_Some, Hes. Qed.
  Lemma paths_all : (forall x y, edge g x y -> (y < length g)%nat) -> (0 < length g)%nat -> paths_upto g (length g).
  Proof.
    intros He Hn u v l Hw Hnd. destruct (walk_first u v l Hw) as [Hu| ->]; [|cbn; lia]. rewrite <- (seq_length (length g) 0). apply submseteq_length. apply NoDup_submseteq; [exact Hnd|].
    intros x Hx. apply elem_of_seq. pose proof (walk_lt u v l Hw He Hu x Hx). lia.
  Qed.
  Lemma walk_front u v l : walk g u v l -> exists p, l = p ++ [v] /\ forall x, x ∈ p -> (x < length g)%nat.
  Proof.
    induction 1 as [u|u w v l (es & Hes & _) _ (p & -> & Hp)]; [exists []; split; [reflexivity|]; intros x Hx; inversion Hx|]. exists (u :: p). split; [reflexivity|].
    intros x [->|Hx]%elem_of_cons; [eapply lookup_lt_Some, Hes|auto].
  Qed.
  Lemma paths_any : paths_upto g (S (length g)).
  Proof.
    intros u v l Hw Hnd. destruct (walk_front u v l Hw) as (p & -> & Hp). rewrite app_length. cbn [length]. apply NoDup_app in Hnd as (Hnd & _). rewrite Nat.add_1_r. apply le_n_S.
    rewrite <- (seq_length (length g) 0). apply submseteq_length. apply NoDup_submseteq; [exact Hnd|]. intros x Hx. apply elem_of_seq. pose proof (Hp x Hx). lia.
  Qed.
  Lemma scc_room k : paths_upto g k -> scc_stack k g = scc g.
  Proof. intros Hk. rewrite scc_stack_scc, (scc_same k (S (length g)) Hk), Nat.add_comm, <- (scc_same (S (length g)) k paths_any). reflexivity. Qed.

  Lemma scc_short v d k : (forall x y, edge g x y -> (y < length g)%nat) -> Z.of_nat (length g) <= 2 ^ 31 - 1 -> (0 < length g)%nat -> is_dist g 0 v d -> (k <= d)%nat -> scc_stack k g = Diverge.
  Proof.
    intros He Hn H0 [(l & Hl & Hd) Hmin] Hk. unfold scc_stack. destruct (length g) as [|m] eqn:En; [lia|]. unfold range. cbn [Nat.sub seq rfor].
    pose proof (tj_new_inv g (S m) En) as Hinv. assert (forall x, ~ visited (tj_new (S m)) x) as Hnv.
    { intros x. unfold visited. cbn [tj_ord tj_new]. unfold hl. destruct (replicate (S m) (-1) !! x) eqn:E; [|lia]. apply lookup_replicate in E as [-> _]. lia. }
    destruct (tdfs_ok g (S m) En Hn He (S (S m)) (fun _ => False) 0 (tj_new (S m))) as (st' & seg & E' & Hi' & HP & _); [|exact Hinv|intros x []|lia|apply Hnv|].
    { pose proof (unset_le (tj_ord (tj_new (S m)))) as H. cbn [tj_ord tj_new] in *. rewrite replicate_length in H. lia. }
    assert (vget (tj_ord (tj_new (S m))) 0 = Ok (-1)) as -> by (apply vget_ok_iff; reflexivity). cbn [mbind res_bind]. rewrite (proj2 (Z.eqb_eq (-1) (-1)) eq_refl).
    destruct (tdfs_upto g (S (S m)) k 0%nat (tj_new (S m))) as [->|Eq]; [reflexivity|]. exfalso.
    destruct (tdfs_upto g k (S (S m)) 0%nat (tj_new (S m))) as [Eq2|Eq2]; [congruence|]. rewrite Nat.add_comm, <- Eq2, E' in Eq.
    destruct (tdfs_near k _ _ _ (new_sane _) Eq) as (_ & _ & N).
    assert (forall a b l, walk g a b l -> visited st' a -> visited st' b) as Hcl.
    { induction 1 as [a|a w b q Hx _ IH]; [auto|]. intros Ha. apply IH. eapply (ti_fin _ _ _ _ Hi'); [exact Ha|intros []|exact Hx]. }
    destruct (N v) as [Hv|(q & Hq & Hql)].
    - apply (Hcl 0%nat v l Hl). apply (tp_u _ _ _ _ _ HP).
    - exact (Hnv v Hv).
    - specialize (Hmin q Hq). lia.
  Qed.
End Scc.
Close Scope Z_scope.
