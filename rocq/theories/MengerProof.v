From stdpp Require Import relations.
From Verif Require Import Prelude DinicSpec DinicProof MengerSpec.
Open Scope Z_scope.
Local Notation occ l i := (count_occ Nat.eq_dec l i).

Definition is1 (x y : nat) : Z := if (x =? y)%nat then 1 else 0.

(** Adding k to the flow on every edge of a path. *)
Definition bump (k : Z) (p : list nat) (fs : list Z) : list Z := foldr (fun i fs => alter (fun z => z + k) i fs) fs p.

Lemma bump_length k p fs : length (bump k p fs) = length fs.
Proof. induction p as [|i p IH]; cbn; [reflexivity|]. rewrite alter_length. exact IH. Qed.

Lemma bump_lookup k p fs i : bump k p fs !! i = (fun z => z + k * Z.of_nat (occ p i)) <$> fs !! i.
Proof.
  induction p as [|j p IH]; cbn [bump foldr count_occ].
  - destruct (fs !! i); cbn; [f_equal; lia|reflexivity].
  - fold (bump k p fs). destruct (Nat.eq_dec j i) as [->|Hne].
    + rewrite list_lookup_alter, IH. destruct (fs !! i); cbn; [f_equal; lia|reflexivity].
    + rewrite list_lookup_alter_ne by exact Hne. exact IH.
Qed.

Lemma outflow_alter k es : forall fs i u v c x, length fs = length es -> es !! i = Some (u, v, c) ->
  outflow es (alter (fun z => z + k) i fs) x = outflow es fs x + k * is1 u x.
Proof.
  unfold is1. induction es as [|[[u' v'] c'] es IH]; intros [|f fs] i u v c x Hl Hi; try discriminate.
  destruct i as [|i]; cbn in Hi |- *.
  - injection Hi as -> -> ->. destruct (u =? x)%nat; lia.
  - cbn [outflow]. change (list_alter (fun z => z + k) i fs) with (alter (fun z => z + k) i fs).
    rewrite (IH fs i u v c x) by first [exact Hi|cbn in Hl; lia]. destruct (u' =? x)%nat; lia.
Qed.
Lemma inflow_alter k es : forall fs i u v c x, length fs = length es -> es !! i = Some (u, v, c) ->
  inflow es (alter (fun z => z + k) i fs) x = inflow es fs x + k * is1 v x.
Proof.
  unfold is1. induction es as [|[[u' v'] c'] es IH]; intros [|f fs] i u v c x Hl Hi; try discriminate.
  destruct i as [|i]; cbn in Hi |- *.
  - injection Hi as -> -> ->. destruct (v =? x)%nat; lia.
  - change (list_alter (fun z => z + k) i fs) with (alter (fun z => z + k) i fs).
    rewrite (IH fs i u v c x) by first [exact Hi|cbn in Hl; lia]. destruct (v' =? x)%nat; lia.
Qed.

Lemma bump_net k es fs p : length fs = length es -> forall x y z, trail es x y p ->
  net_out es (bump k p fs) z = net_out es fs z + k * (is1 x z - is1 y z).
Proof.
  intros Hl. induction p as [|i p IH]; intros x y z Ht; cbn [trail] in Ht.
  - subst y. cbn. lia.
  - destruct Ht as (w & c & Hi & Ht). specialize (IH w y z Ht). unfold net_out in *. cbn [bump foldr]. fold (bump k p fs).
    assert (Hl' : length (bump k p fs) = length es) by (rewrite bump_length; exact Hl).
    rewrite (outflow_alter k es _ i x w c z Hl' Hi), (inflow_alter k es _ i x w c z Hl' Hi). lia.
Qed.

(** ** A flow of positive value runs along some path *)
Lemma reach_set (P : list (nat * nat)) : forall s, exists X : nat -> bool, X s = true /\
  (forall x y, (x, y) ∈ P -> X x = true -> X y = true) /\ (forall x, X x = true -> rtc (fun x y => (x, y) ∈ P) s x).
Proof.
  induction P as [|[u v] P IH]; intros s.
  - exists (fun x => (x =? s)%nat). split; [apply Nat.eqb_refl|]. split; [intros x y H; inversion H|]. intros x ->%Nat.eqb_eq. apply rtc_refl.
  - destruct (IH s) as (X1 & A1 & B1 & C1). destruct (IH v) as (X2 & A2 & B2 & C2).
    exists (fun x => X1 x || (X1 u && X2 x)). split; [rewrite A1; reflexivity|].
    assert (Hmono : forall a b, rtc (fun x y => (x, y) ∈ P) a b -> rtc (fun x y => (x, y) ∈ (u, v) :: P) a b).
    { intros a b R. eapply rtc_subrel; [|exact R]. intros x y H. right. exact H. }
    split.
    + intros x y Hxy Hx. apply orb_true_iff. apply orb_true_iff in Hx as [Hx|[Hu Hx]%andb_true_iff]; apply elem_of_cons in Hxy as [[= -> ->]|Hxy].
      * right. rewrite Hx, A2. reflexivity.
      * left. eauto.
      * right. rewrite Hu, A2. reflexivity.
      * right. rewrite Hu. cbn. eauto.
    + intros x Hx. apply orb_true_iff in Hx as [Hx|[Hu Hx]%andb_true_iff]; [apply Hmono, C1, Hx|].
      eapply rtc_transitive; [apply Hmono, C1, Hu|]. eapply rtc_l; [left|apply Hmono, C2, Hx].
Qed.

Lemma trail_app es p : forall q x y z, trail es x y p -> trail es y z q -> trail es x z (p ++ q).
Proof.
  induction p as [|i p IH]; intros q x y z Hp Hq; cbn [trail app] in *; [subst; exact Hq|].
  destruct Hp as (w & c & Hi & Hp). exists w, c. split; [exact Hi|]. eapply IH; eassumption.
Qed.
Lemma trail_app_inv es p : forall q x z, trail es x z (p ++ q) -> exists y, trail es x y p /\ trail es y z q.
Proof.
  induction p as [|i p IH]; intros q x z H; cbn [trail app] in *; [eauto|].
  destruct H as (w & c & Hi & H). destruct (IH q w z H) as (y & H1 & H2). exists y. split; [eauto|exact H2].
Qed.

Lemma dup_split (p : list nat) : ~ NoDup p -> exists i p1 p2 p3, p = p1 ++ i :: p2 ++ i :: p3.
Proof.
  induction p as [|i p IH]; intros H; [exfalso; apply H; constructor|].
  destruct (decide (i ∈ p)) as [Hi|Hi].
  - apply elem_of_list_split in Hi as (p2 & p3 & ->). exists i, [], p2, p3. reflexivity.
  - destruct IH as (j & p1 & p2 & p3 & ->); [intros N; apply H; apply NoDup_cons; auto|]. exists j, (i :: p1), p2, p3. reflexivity.
Qed.

(** A path that uses no edge twice, on edges taken from the given one. *)
Lemma trail_nodup es x y p : trail es x y p -> exists q, trail es x y q /\ NoDup q /\ q ⊆ p.
Proof.
  remember (length p) as n eqn:Hn. revert p Hn. induction (lt_wf n) as [n _ IH]. intros p -> Hp.
  destruct (decide (NoDup p)) as [N|N]; [exists p; auto|]. apply dup_split in N as (i & p1 & p2 & p3 & ->).
  apply trail_app_inv in Hp as (a & H1 & H2). cbn [trail] in H2. destruct H2 as (w & c & Hi & H2).
  apply trail_app_inv in H2 as (b & _ & H2). cbn [trail] in H2. destruct H2 as (w' & c' & Hi' & H2).
  assert (w' = w /\ c' = c) as [-> ->] by (split; congruence).
  assert (Hq : trail es x y (p1 ++ i :: p3)).
  { eapply trail_app; [exact H1|]. cbn [trail]. exists w, c. auto. }
  destruct (IH (length (p1 ++ i :: p3))) with (p := p1 ++ i :: p3) as (q & A & B & C); [rewrite !app_length; cbn; rewrite app_length; cbn; lia|reflexivity|exact Hq|].
  exists q. split; [exact A|]. split; [exact B|]. intros j Hj. apply C in Hj. revert Hj. set_solver.
Qed.

(** Edges that carry flow. *)
Definition carries (es : list fedge) (fs : list Z) (x y : nat) : Prop := exists i c f, es !! i = Some (x, y, c) /\ fs !! i = Some f /\ 0 < f.

Lemma carried_pairs es : forall fs, length fs = length es -> exists P : list (nat * nat), forall x y, (x, y) ∈ P <-> carries es fs x y.
Proof.
  unfold carries. induction es as [|[[u v] c] es IH]; intros [|f fs] Hl; try discriminate.
  - exists []. intros x y. split; [intros H; inversion H|intros (i & c & f & H & _); destruct i; discriminate].
  - destruct (IH fs ltac:(cbn in Hl; lia)) as (P & HP).
    exists (if 0 <? f then (u, v) :: P else P). intros x y.
    assert (Htl : (x, y) ∈ P <-> exists i c0 f0, ((u, v, c) :: es) !! S i = Some (x, y, c0) /\ (f :: fs) !! S i = Some f0 /\ 0 < f0).
    { rewrite HP. reflexivity. }
    destruct (Z.ltb_spec 0 f); [rewrite elem_of_cons|]; rewrite Htl; split.
    + intros [[= -> ->]|(i & c0 & f0 & H0)]; [exists 0%nat, c, f; auto|exists (S i), c0, f0; exact H0].
    + intros ([|i] & c0 & f0 & H1 & H2 & H3); [left; cbn in H1; congruence|right; exists i, c0, f0; auto].
    + intros (i & c0 & f0 & H0). exists (S i), c0, f0. exact H0.
    + intros ([|i] & c0 & f0 & H1 & H2 & H3); [cbn in H2; injection H2 as ->; lia|exists i, c0, f0; auto].
Qed.

Lemma carried_trail es fs x y : rtc (carries es fs) x y -> exists p, trail es x y p /\ forall i, i ∈ p -> exists f, fs !! i = Some f /\ 0 < f.
Proof.
  intros R. induction R as [|x w y (i & c & f & Hi & Hf & H0) R (p & Hp & Hpos)].
  - exists []. split; [reflexivity|]. intros i H. inversion H.
  - exists (i :: p). split; [cbn; eauto|]. intros j [->|Hj]%elem_of_cons; eauto.
Qed.

Lemma cutflow_nonpos es fs (X : nat -> bool) : Forall2 (fun e f => 0 <= f <= e.2) es fs ->
  (forall x y, carries es fs x y -> X x = true -> X y = true) -> cutflow es fs X <= 0.
Proof.
  induction 1 as [|[[u v] c] f es fs Hf _ IH]; intros HX; [reflexivity|]. cbn [cutflow].
  assert (cutflow es fs X <= 0).
  { apply IH. intros x y (i & c' & f' & H1 & H2 & H3). apply HX. exists (S i), c', f'. auto. }
  unfold bz. cbn in Hf. destruct (Z.ltb_spec 0 f) as [Hp|Hp].
  - assert (X u = true -> X v = true) by (apply HX; exists 0%nat, c, f; auto). destruct (X u), (X v); lia.
  - assert (f = 0) as -> by lia. lia.
Qed.

Lemma occ_nodup p i : NoDup p -> (occ p i <= 1)%nat.
Proof.
  intros N%NoDup_ListNoDup. apply (proj1 (NoDup_count_occ Nat.eq_dec p) N).
Qed.

Lemma flow_path n es s t fs : (forall u v c, (u, v, c) ∈ es -> (u < n)%nat /\ (v < n)%nat) -> (s < n)%nat -> s <> t ->
  feasible es s t fs -> 0 < flow_value es s fs ->
  exists p, trail es s t p /\ feasible es s t (bump (-1) p fs) /\ flow_value es s (bump (-1) p fs) = flow_value es s fs - 1 /\
    forall i, bump (-1) p fs !! i = (fun z => z - Z.of_nat (occ p i)) <$> fs !! i.
Proof.
  intros Hes Hs Hst Hf Hv. pose proof Hf as [Hb Hc]. assert (Hl : length fs = length es) by (symmetry; eapply Forall2_length, Hb).
  destruct (carried_pairs es fs Hl) as (P & HP). destruct (reach_set P s) as (X & X1 & X2 & X3).
  assert (Xt : X t = true).
  { destruct (X t) eqn:Xt; [reflexivity|exfalso]. rewrite (value_cutflow n es s t fs X Hes Hs Hf X1 Xt) in Hv.
    pose proof (cutflow_nonpos es fs X Hb). assert (cutflow es fs X <= 0); [|lia]. apply H. intros x y Hxy. apply X2. apply HP. exact Hxy. }
  assert (R : rtc (carries es fs) s t).
  { eapply rtc_subrel; [|apply X3, Xt]. intros x y H. apply HP. exact H. }
  apply carried_trail in R as (p0 & Hp0 & Hpos). apply trail_nodup in Hp0 as (p & Hp & N & Hsub).
  assert (Hlk : forall i, bump (-1) p fs !! i = (fun z => z - Z.of_nat (occ p i)) <$> fs !! i).
  { intros i. rewrite bump_lookup. destruct (fs !! i); cbn; [f_equal; lia|reflexivity]. }
  assert (Hnet : forall z, net_out es (bump (-1) p fs) z = net_out es fs z - (is1 s z - is1 t z)).
  { intros z. rewrite (bump_net (-1) es fs p Hl s t z Hp). lia. }
  exists p. split; [exact Hp|]. split; [split|split; [|exact Hlk]].
  - apply Forall2_same_length_lookup_2; [rewrite bump_length; congruence|]. intros i e f He Hfi. rewrite Hlk in Hfi.
    destruct (fs !! i) as [f0|] eqn:Hf0; [|discriminate]. cbn in Hfi. injection Hfi as <-.
    pose proof (Forall2_lookup_lr _ _ _ _ _ _ Hb He Hf0) as H0. cbn in H0.
    pose proof (occ_nodup p i N). destruct (decide (i ∈ p)) as [Hi|Hi].
    + destruct (Hpos i (Hsub i Hi)) as (f1 & E1 & H1). rewrite Hf0 in E1. injection E1 as <-. lia.
    + assert (occ p i = 0%nat) as -> by (apply count_occ_not_In; rewrite <- elem_of_list_In; exact Hi). lia.
  - intros x Hxs Hxt. specialize (Hnet x). specialize (Hc x Hxs Hxt). unfold net_out, is1 in Hnet.
    destruct (Nat.eqb_spec s x); [congruence|]. destruct (Nat.eqb_spec t x); [congruence|]. lia.
  - specialize (Hnet s). unfold net_out, is1 in Hnet. unfold flow_value. rewrite Nat.eqb_refl in Hnet. destruct (Nat.eqb_spec t s); [congruence|]. lia.
Qed.

(** A flow of value k is k paths. *)
Lemma flow_paths n es s t : (forall u v c, (u, v, c) ∈ es -> (u < n)%nat /\ (v < n)%nat) -> (s < n)%nat -> s <> t ->
  forall k fs, feasible es s t fs -> flow_value es s fs = Z.of_nat k ->
  exists ps, length ps = k /\ Forall (trail es s t) ps /\ forall i f, fs !! i = Some f -> Z.of_nat (occ (concat ps) i) <= f.
Proof.
  intros Hes Hs Hst. induction k as [|k IH]; intros fs Hf Hv.
  - exists []. split; [reflexivity|]. split; [constructor|]. intros i f Hi. cbn. destruct Hf as [Hb _].
    destruct (Forall2_lookup_r _ _ _ _ _ Hb Hi) as (e & _ & H). lia.
  - destruct (flow_path n es s t fs Hes Hs Hst Hf ltac:(lia)) as (p & Hp & Hf' & Hv' & Hlk).
    destruct (IH _ Hf' ltac:(lia)) as (ps & Hl & Hps & Hocc). exists (p :: ps). split; [cbn; lia|]. split; [constructor; assumption|].
    intros i f Hi. cbn [concat]. rewrite count_occ_app. specialize (Hocc i (f - Z.of_nat (occ p i))).
    rewrite Hlk, Hi in Hocc. specialize (Hocc eq_refl). lia.
Qed.

(** k paths are a flow of value k. *)
Lemma paths_flow es s t ps : s <> t -> (forall i u v c, es !! i = Some (u, v, c) -> 0 <= c) -> packing es s t ps ->
  exists fs, feasible es s t fs /\ flow_value es s fs = Z.of_nat (length ps).
Proof.
  intros Hst Hcap [Hps Hocc].
  assert (H : exists fs, length fs = length es /\ (forall i f, fs !! i = Some f -> f = Z.of_nat (occ (concat ps) i)) /\
    forall z, net_out es fs z = Z.of_nat (length ps) * (is1 s z - is1 t z)).
  { clear Hocc. induction Hps as [|p ps Hp Hps (fs & Hl & Hi & Hn)].
    - exists (replicate (length es) 0). split; [apply replicate_length|]. split; [intros i f [-> _]%lookup_replicate; reflexivity|].
      intros z. unfold net_out. clear. induction es as [|[[u v] c] es IH]; [reflexivity|]. cbn [length replicate outflow inflow] in *.
      destruct (u =? z)%nat, (v =? z)%nat; cbn in *; lia.
    - exists (bump 1 p fs). split; [rewrite bump_length; exact Hl|]. split.
      + intros i f. rewrite bump_lookup. destruct (fs !! i) as [f0|] eqn:E; [|discriminate]. cbn. intros [= <-]. rewrite (Hi i f0 E), count_occ_app. lia.
      + intros z. rewrite (bump_net 1 es fs p Hl s t z Hp), Hn. cbn [length]. lia. }
  destruct H as (fs & Hl & Hi & Hn). exists fs. split; [split|].
  - apply Forall2_same_length_lookup_2; [congruence|]. intros i [[u v] c] f He Hf. rewrite (Hi i f Hf). specialize (Hocc i u v c He). cbn. lia.
  - intros x Hxs Hxt. specialize (Hn x). unfold net_out, is1 in Hn. destruct (Nat.eqb_spec s x); [congruence|]. destruct (Nat.eqb_spec t x); [congruence|]. lia.
  - specialize (Hn s). unfold net_out, is1 in Hn. unfold flow_value. rewrite Nat.eqb_refl in Hn. destruct (Nat.eqb_spec t s); [congruence|]. lia.
Qed.

(** ** Separating sets *)
(** The edges leaving a set of vertices, numbered from k. *)
Fixpoint leaving (k : nat) (es : list fedge) (X : nat -> bool) : list nat :=
  match es with
  | [] => []
  | (u, v, _) :: es => if X u && negb (X v) then k :: leaving (S k) es X else leaving (S k) es X
  end.
Lemma leaving_in es X : forall k i, i ∈ leaving k es X <-> exists j u v c, i = (k + j)%nat /\ es !! j = Some (u, v, c) /\ X u = true /\ X v = false.
Proof.
  induction es as [|[[u v] c] es IH]; intros k i; cbn [leaving].
  - split; [intros H; inversion H|intros (j & u & v & c & _ & H & _); destruct j; discriminate].
  - assert (Htl : i ∈ leaving (S k) es X <-> exists j u0 v0 c0, i = (k + S j)%nat /\ ((u, v, c) :: es) !! S j = Some (u0, v0, c0) /\ X u0 = true /\ X v0 = false).
    { rewrite IH. split; intros (j & u0 & v0 & c0 & -> & H); exists j, u0, v0, c0; (split; [lia|exact H]). }
    destruct (X u) eqn:Xu, (X v) eqn:Xv; cbn [andb negb]; rewrite ?elem_of_cons, Htl; (split;
      [|intros ([|j] & u0 & v0 & c0 & -> & H0 & H1 & H2); [cbn in H0; injection H0 as <- <- <-; first [congruence|left; lia]|first [right; eauto 10|eauto 10]]]).
    all: try (intros (j & u0 & v0 & c0 & H); exists (S j), u0, v0, c0; exact H).
    intros [->|(j & u0 & v0 & c0 & H)]; [exists 0%nat, u, v, c; split_and!; auto; lia|exists (S j), u0, v0, c0; exact H].
Qed.
Lemma leaving_nodup es X : forall k, NoDup (leaving k es X).
Proof.
  induction es as [|[[u v] c] es IH]; intros k; cbn [leaving]; [constructor|]. destruct (X u && negb (X v)); [|apply IH].
  apply NoDup_cons. split; [|apply IH]. intros (j & ? & ? & ? & H & _)%leaving_in. lia.
Qed.
Lemma leaving_cap all es X : forall k, (forall j, all !! (k + j)%nat = es !! j) -> capacity all (leaving k es X) = cut_cap es X.
Proof.
  induction es as [|[[u v] c] es IH]; intros k Hk; cbn [leaving cut_cap capacity]; [reflexivity|].
  assert (IH' : capacity all (leaving (S k) es X) = cut_cap es X).
  { apply IH. intros j. specialize (Hk (S j)). replace (S k + j)%nat with (k + S j)%nat by lia. exact Hk. }
  destruct (X u && negb (X v)); cbn [capacity]; [|lia]. specialize (Hk 0%nat). rewrite Nat.add_0_r in Hk. rewrite Hk. cbn. lia.
Qed.

Lemma leaving_separates es s t X : X s = true -> X t = false -> separates es s t (leaving 0 es X).
Proof.
  intros Xs Xt p. revert s Xs. induction p as [|i p IH]; intros s Xs Hp; cbn [trail] in Hp; [congruence|].
  destruct Hp as (w & c & Hi & Hp). destruct (X w) eqn:Xw.
  - destruct (IH w Xw Hp) as (j & H1 & H2). exists j. split; [right; exact H1|exact H2].
  - exists i. split; [left|]. apply leaving_in. exists i, s, w, c. auto.
Qed.

(** Every separating set is met by every path of a packing. *)
Lemma packing_capacity es s t ps C : (forall i u v c, es !! i = Some (u, v, c) -> 0 <= c) -> packing es s t ps -> separates es s t C ->
  Z.of_nat (length ps) <= capacity es C.
Proof.
  intros Hcap [Hps Hocc] Hsep.
  assert (Hin : forall i, i ∈ concat ps -> exists u v c, es !! i = Some (u, v, c)).
  { intros i Hi. apply elem_of_list_In, in_concat in Hi as (p & Hp & Hi). apply elem_of_list_In in Hp. apply elem_of_list_In in Hi. rewrite Forall_forall in Hps. specialize (Hps p Hp).
    clear -Hps Hi. revert s Hps. induction p as [|j p IH]; intros s Hps; [inversion Hi|]. cbn [trail] in Hps. destruct Hps as (w & c & Hj & Hps).
    apply elem_of_cons in Hi as [->|Hi]; [eauto|]. exact (IH Hi w Hps). }
  set (F := fun l => foldr (fun i k => (occ l i + k)%nat) 0%nat C).
  assert (H1 : (length ps <= F (concat ps))%nat).
  { clear Hocc Hin. induction Hps as [|p ps Hp Hps IH]; [cbn; lia|]. cbn [concat length].
    assert (Happ : F (p ++ concat ps) = (F p + F (concat ps))%nat).
    { unfold F. clear. induction C as [|i C IH]; cbn; [lia|]. rewrite count_occ_app. lia. }
    assert (1 <= F p)%nat; [|lia]. destruct (Hsep p Hp) as (i & Hi & HiC). unfold F. clear -Hi HiC. induction C as [|j C IH]; [inversion HiC|]. cbn.
    apply elem_of_cons in HiC as [->|HiC]; [|specialize (IH HiC); lia].
    assert (occ p j > 0)%nat by (apply count_occ_In; rewrite <- elem_of_list_In; exact Hi). lia. }
  assert (H2 : Z.of_nat (F (concat ps)) <= capacity es C); [|lia]. unfold F. clear H1 Hsep F. induction C as [|i C IH]; cbn [foldr capacity]; [lia|].
  rewrite Nat2Z.inj_add. destruct (es !! i) as [[[u v] c]|] eqn:Hi; cbn.
  - specialize (Hocc i u v c Hi). lia.
  - assert (occ (concat ps) i = 0%nat) as ->; [|lia]. apply count_occ_not_In. rewrite <- elem_of_list_In. intros H. destruct (Hin i H) as (u & v & c & E). congruence.
Qed.
Close Scope Z_scope.
