From Verif Require Import Prelude IntModel DinicModel DinicSpec DinicProof DinicProps FlowRelModel FlowRelSpec.
Open Scope Z_scope.

Definition setting (T : ity) (n s t : nat) : Prop := T ∈ prim_types /\ Z.of_nat n <= 2 ^ 31 - 1 /\ (s < n)%nat /\ (t < n)%nat /\ s <> t.

(** The outcome in terms of cuts. *)
Lemma outcome T n es s t : setting T n s t -> network T n es ->
  (max_flow_of T n es s t = Panic /\ forall S, S s = true -> S t = false -> it_max T < cut_cap es S) \/
  exists v, max_flow_of T n es s t = Ok v /\ is_min_cut es s t v /\ 0 <= v <= it_max T.
Proof.
  intros (HT & Hn & Hs & Ht & Hst) Hes. destruct (prim_bounds T HT) as [H1 H2]. destruct (build_ok T n es Hes) as (d & E & Hd & Hnet).
  unfold max_flow_of. rewrite E. cbn [mbind res_bind]. pose proof (build_cap T n es H1 Hes) as Hcap.
  assert (Hin : forall u v c, (u, v, c) ∈ es -> (u < n)%nat /\ (v < n)%nat).
  { intros u v c Hi. unfold network in Hes. rewrite Forall_forall in Hes. destruct (Hes (u, v, c) Hi) as (A & B & _). auto. }
  destruct (max_flow_total T n es d s t 0 H1 H2 Hn Hcap Hd Hs Ht Hst) as [[E' (fs & F1 & F2)]|(d' & v & E' & Hv & _ & _ & _ & _ & M2)]; auto.
  - left. rewrite E'. split; [reflexivity|]. intros S Ss St. rewrite (value_cutflow n es s t fs S Hin Hs F1 Ss St) in F2. pose proof (cutflow_le es fs S (proj1 F1)). lia.
  - right. exists v. rewrite E'. split; [reflexivity|]. split; [exact M2|].
    destruct (max_flow_gen T n es d s t H1 H2 Hn Hcap Hd Hs Ht Hst) as [[E'' _]|(d'' & v' & E'' & Hv' & _)]; [congruence|]. rewrite E' in E''. injection E'' as <- <-. exact Hv'.
Qed.
Lemma outcome_ok T n es s t v : setting T n s t -> network T n es -> max_flow_of T n es s t = Ok v -> is_min_cut es s t v /\ 0 <= v <= it_max T.
Proof. intros H1 H2 E. destruct (outcome T n es s t H1 H2) as [[E' _]|(v' & E' & H)]; [congruence|]. rewrite E in E'. injection E' as <-. exact H. Qed.

(** Networks whose cuts correspond have the same outcome. *)
Lemma same_cuts T n n' es es' s t s' t' (f g : (nat -> bool) -> nat -> bool) : setting T n s t -> setting T n' s' t' -> network T n es -> network T n' es' ->
  (forall S, S s = true -> S t = false -> f S s' = true /\ f S t' = false /\ cut_cap es' (f S) = cut_cap es S) ->
  (forall S, S s' = true -> S t' = false -> g S s = true /\ g S t = false /\ cut_cap es (g S) = cut_cap es' S) ->
  max_flow_of T n es s t = max_flow_of T n' es' s' t'.
Proof.
  intros A A' N N' Hf Hg. destruct (outcome T n es s t A N) as [[E P]|(v & E & [(S & S1 & S2 & S3) M] & B)], (outcome T n' es' s' t' A' N') as [[E' P']|(v' & E' & [(S' & S1' & S2' & S3') M'] & B')]; rewrite E, E'.
  - reflexivity.
  - destruct (Hg S' S1' S2') as (G1 & G2 & G3). specialize (P _ G1 G2). lia.
  - destruct (Hf S S1 S2) as (G1 & G2 & G3). specialize (P' _ G1 G2). lia.
  - destruct (Hf S S1 S2) as (G1 & G2 & G3). specialize (M' _ G1 G2). destruct (Hg S' S1' S2') as (F1 & F2 & F3). specialize (M _ F1 F2). f_equal. lia.
Qed.

Lemma cut_app es es' S : cut_cap (es ++ es') S = cut_cap es S + cut_cap es' S.
Proof. induction es as [|[[u v] c] es IH]; cbn [app cut_cap]; lia. Qed.
Lemma cut_perm es es' S : es ≡ₚ es' -> cut_cap es S = cut_cap es' S.
Proof. induction 1 as [|[[u v] c] l l' _ IH|[[u v] c] [[u' v'] c'] l|l l' l'' _ IH1 _ IH2]; cbn [cut_cap]; lia. Qed.
Lemma cut_turned es S : cut_cap (turned es) (fun x => negb (S x)) = cut_cap es S.
Proof. induction es as [|[[u v] c] es IH]; [reflexivity|]. cbn [turned map cut_cap fst snd]. fold (turned es). rewrite IH. destruct (S u), (S v); reflexivity. Qed.
Lemma cut_scaled k es S : cut_cap (scaled k es) S = k * cut_cap es S.
Proof. induction es as [|[[u v] c] es IH]; [cbn; lia|]. cbn [scaled map cut_cap fst snd]. fold (scaled k es). rewrite IH. destruct (S u && negb (S v)); lia. Qed.
Lemma cut_renamed p es S : cut_cap (renamed p es) S = cut_cap es (fun x => S (p x)).
Proof. induction es as [|[[u v] c] es IH]; [reflexivity|]. cbn [renamed map cut_cap fst snd]. fold (renamed p es). rewrite IH. reflexivity. Qed.
Lemma cut_ext es S S' : (forall u v c, (u, v, c) ∈ es -> S u = S' u /\ S v = S' v) -> cut_cap es S = cut_cap es S'.
Proof.
  induction es as [|[[u v] c] es IH]; intros H; [reflexivity|]. cbn [cut_cap]. destruct (H u v c (elem_of_list_here _ _)) as [-> ->]. rewrite IH; [reflexivity|].
  intros u' v' c' Hin. apply (H u' v' c'). right. exact Hin.
Qed.
Lemma cut_useless s t es S : S s = true -> S t = false -> cut_cap (filter (fun e => ~ useless s t e) es) S = cut_cap es S.
Proof.
  intros Ss St. induction es as [|[[u v] c] es IH]; [reflexivity|]. rewrite filter_cons. destruct (decide _) as [H|H]; cbn [cut_cap]; [lia|].
  destruct (decide (useless s t (u, v, c))) as [Hu|Hu]; [|contradiction]. destruct Hu as [Hu|[Hu|[Hu|Hu]]]; cbn in Hu; subst; rewrite ?Ss, ?St; cbn; [|..|].
  - rewrite andb_false_r. lia.
  - lia.
  - destruct (S v); cbn; lia.
  - destruct (S u && negb (S v)); lia.
Qed.
Lemma network_turned T n es : network T n es -> network T n (turned es).
Proof. unfold network, turned. rewrite Forall_map. intros H. eapply Forall_impl; [exact H|]. intros [[u v] c]. cbn. tauto. Qed.
Close Scope Z_scope.
