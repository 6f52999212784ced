From Verif Require Import Prelude IntModel DinicModel DinicSpec DinicProof DinicProps FlowRelModel FlowRelSpec FlowRelProof CircModel CircSpec.
Open Scope Z_scope.

Lemma aux_cons n d ds : aux_net n (d :: ds) = (d.1.1, d.1.2, d.2.2 - d.2.1) :: (n, d.1.2, d.2.1) :: (d.1.1, S n, d.2.1) :: aux_net n ds.
Proof. reflexivity. Qed.
Lemma aux_network T n ds : bounds_ok T n ds -> network T (n + 2) (aux_net n ds).
Proof.
  induction 1 as [|d ds (H1 & H2 & H3 & H4) _ IH]; [constructor|]. rewrite aux_cons. repeat (apply Forall_cons; split; [cbn; split_and!; lia|]). exact IH.
Qed.
Lemma low_nonneg T n ds : bounds_ok T n ds -> 0 <= low_sum ds.
Proof. induction 1 as [|d ds (H1 & H2 & H3 & H4) _ IH]; cbn; [lia|]. unfold low_sum in IH. lia. Qed.

(** Cuts of the auxiliary network. *)
Lemma aux_cut n ds (X : nat -> bool) : X n = true -> X (S n) = false -> cut_cap (aux_net n ds) X = low_sum ds + upper_out ds X - lower_in ds X.
Proof.
  intros X1 X2. induction ds as [|d ds IH]; [reflexivity|]. rewrite aux_cons. cbn [cut_cap upper_out lower_in]. change (low_sum (d :: ds)) with (d.2.1 + low_sum ds).
  rewrite IH, X1, X2. cbn [negb andb]. destruct (X d.1.1), (X d.1.2); cbn [andb negb]; lia.
Qed.
Lemma aux_cut_s n ds : Forall (fun d : bedge => (d.1.1 < n)%nat /\ (d.1.2 < n)%nat) ds -> cut_cap (aux_net n ds) (fun x => (x =? n)%nat) = low_sum ds.
Proof.
  intros F. induction F as [|d ds [H1 H2] _ IH]; [reflexivity|]. rewrite aux_cons. cbn [cut_cap]. change (low_sum (d :: ds)) with (d.2.1 + low_sum ds). rewrite IH, Nat.eqb_refl.
  destruct (Nat.eqb_spec d.1.1 n); [lia|]. destruct (Nat.eqb_spec d.1.2 n); [lia|]. cbn [andb negb]. lia.
Qed.
Lemma ranges T n ds : bounds_ok T n ds -> Forall (fun d : bedge => (d.1.1 < n)%nat /\ (d.1.2 < n)%nat) ds.
Proof. intros B. eapply Forall_impl; [exact B|]. intros d (H1 & H2 & _). auto. Qed.

(** Flows of the auxiliary network, three per edge. *)
Definition flat (tr : list (Z * Z * Z)) : list Z := concat (map (fun x => [x.1.1; x.1.2; x.2]) tr).
Lemma flat_cons x tr : flat (x :: tr) = x.1.1 :: x.1.2 :: x.2 :: flat tr.
Proof. reflexivity. Qed.
Lemma unflat n ds : forall gs, Forall2 (fun e f => 0 <= f <= e.2) (aux_net n ds) gs ->
  exists tr, gs = flat tr /\ Forall2 (fun (d : bedge) x => 0 <= x.1.1 <= d.2.2 - d.2.1 /\ 0 <= x.1.2 <= d.2.1 /\ 0 <= x.2 <= d.2.1) ds tr.
Proof.
  induction ds as [|d ds IH]; intros gs H.
  - inversion H; subst. exists []. split; [reflexivity|constructor].
  - rewrite aux_cons in H. inversion H as [|? a ? gs1 A H1]; subst. inversion H1 as [|? b ? gs2 B H2]; subst. inversion H2 as [|? c ? gs3 C H3]; subst. cbn in A, B, C.
    destruct (IH gs3 H3) as (tr & -> & F). exists ((a, b, c) :: tr). split; [reflexivity|]. constructor; [cbn; auto|exact F].
Qed.
Lemma flow_balance n ds : Forall (fun d : bedge => (d.1.1 < n)%nat /\ (d.1.2 < n)%nat) ds -> forall tr fs, length tr = length ds -> Forall2 (fun (d : bedge * Z) x => x = (d.2 - d.1.2.1, d.1.2.1, d.1.2.1)) (zip ds fs) tr -> length fs = length ds -> forall x, (x < n)%nat ->
  outflow (aux_net n ds) (flat tr) x = leaving ds fs x /\ inflow (aux_net n ds) (flat tr) x = entering ds fs x.
Proof.
  intros F. induction F as [|d ds [H1 H2] _ IH]; intros tr fs L Z2 Lf x Hx; [split; reflexivity|].
  destruct fs as [|f fs]; [discriminate|]. destruct tr as [|y tr]; [discriminate|]. cbn [zip zip_with] in Z2. inversion Z2 as [|? ? ? ? Hy Z3]; subst. cbn [fst snd] in *.
  destruct (IH tr fs ltac:(cbn in L; lia) Z3 ltac:(cbn in Lf; lia) x Hx) as [I1 I2]. rewrite aux_cons, flat_cons. cbn [outflow inflow leaving entering fst snd]. rewrite I1, I2.
  destruct (Nat.eqb_spec n x); [lia|]. destruct (Nat.eqb_spec (S n) x); [lia|]. destruct (d.1.1 =? x)%nat, (d.1.2 =? x)%nat; split; lia.
Qed.
Lemma leaving_out n ds : Forall (fun d : bedge => (d.1.1 < n)%nat /\ (d.1.2 < n)%nat) ds -> forall fs x, (n <= x)%nat -> leaving ds fs x = 0 /\ entering ds fs x = 0.
Proof.
  intros F. induction F as [|d ds [H1 H2] _ IH]; intros fs x Hx; [auto|]. destruct fs as [|f fs]; [auto|]. cbn [leaving entering]. destruct (IH fs x Hx) as [-> ->].
  destruct (Nat.eqb_spec d.1.1 x); [lia|]. destruct (Nat.eqb_spec d.1.2 x); [lia|]. auto.
Qed.
Lemma cutflow_s n ds : Forall (fun d : bedge => (d.1.1 < n)%nat /\ (d.1.2 < n)%nat) ds -> forall tr, length tr = length ds ->
  cutflow (aux_net n ds) (flat tr) (fun x => (x =? n)%nat) = foldr (fun x a => x.1.2 + a) 0 tr /\
  cutflow (aux_net n ds) (flat tr) (fun x => negb (x =? S n)%nat) = foldr (fun x a => x.2 + a) 0 tr.
Proof.
  intros F. induction F as [|d ds [H1 H2] _ IH]; intros tr L; destruct tr as [|y tr]; try discriminate; [split; reflexivity|].
  destruct (IH tr ltac:(cbn in L; lia)) as [I1 I2]. rewrite aux_cons, flat_cons. cbn [cutflow foldr]. rewrite I1, I2, !Nat.eqb_refl.
  destruct (Nat.eqb_spec d.1.1 n); [lia|]. destruct (Nat.eqb_spec d.1.2 n); [lia|]. destruct (Nat.eqb_spec d.1.1 (S n)); [lia|]. destruct (Nat.eqb_spec d.1.2 (S n)); [lia|]. destruct (Nat.eqb_spec (S n) n); [lia|]. destruct (Nat.eqb_spec n (S n)); [lia|].
  unfold bz. cbn [negb]. split; lia.
Qed.
Lemma saturated (p : Z * Z * Z -> Z) ds : forall tr, Forall2 (fun (d : bedge) x => p x <= d.2.1) ds tr -> foldr (fun x a => p x + a) 0 tr <= low_sum ds /\
  (foldr (fun x a => p x + a) 0 tr = low_sum ds -> Forall2 (fun (d : bedge) x => p x = d.2.1) ds tr).
Proof.
  intros tr H. induction H as [|d x ds tr Hx _ [I1 I2]]; [split; [reflexivity|constructor]|]. change (low_sum (d :: ds)) with (d.2.1 + low_sum ds). cbn [foldr]. split; [lia|]. intros E. constructor; [lia|]. apply I2. lia.
Qed.

Section circ.
  Context (T : ity) (n : nat) (ds : list bedge) (HT : T ∈ prim_types) (Hn : Z.of_nat (n + 2) <= 2 ^ 31 - 1) (B : bounds_ok T n ds).
  Lemma circ_setting : setting T (n + 2) n (S n).
  Proof. split; [exact HT|]. split; [exact Hn|]. split_and!; lia. Qed.
  Lemma aux_in u v c : (u, v, c) ∈ aux_net n ds -> (u < n + 2)%nat /\ (v < n + 2)%nat.
  Proof. intros Hi. pose proof (aux_network T n ds B) as N. unfold network in N. rewrite Forall_forall in N. destruct (N _ Hi) as (A & C & _). auto. Qed.
  (** A circulation fills the auxiliary network. *)
  Lemma circ_fill fs : circulation ds fs -> exists gs, feasible (aux_net n ds) n (S n) gs /\ flow_value (aux_net n ds) n gs = low_sum ds.
  Proof.
    intros [W C]. set (tr := map (fun d : bedge * Z => (d.2 - d.1.2.1, d.1.2.1, d.1.2.1)) (zip ds fs)). pose proof (Forall2_length _ _ _ W) as L.
    assert (Ltr : length tr = length ds) by (unfold tr; rewrite map_length, zip_with_length; lia).
    assert (Z2 : Forall2 (fun (d : bedge * Z) x => x = (d.2 - d.1.2.1, d.1.2.1, d.1.2.1)) (zip ds fs) tr) by (unfold tr; clear; induction (zip ds fs); constructor; auto).
    assert (Feas : feasible (aux_net n ds) n (S n) (flat tr)).
    { split.
      - unfold tr. clear -W B. revert B. induction W as [|d f ds fs Hf _ IH]; intros B; [constructor|]. inversion B as [|? ? (B1 & B2 & B3 & B4) B5]; subst. rewrite aux_cons. cbn [zip zip_with map]. rewrite flat_cons. repeat (constructor; [cbn; lia|]). apply IH. exact B5.
      - intros x X1 X2. destruct (decide (x < n)%nat) as [Hx|Hx].
        + destruct (flow_balance n ds (ranges T n ds B) tr fs Ltr Z2 ltac:(lia) x Hx) as [-> ->]. apply C.
        + assert (forall gs, outflow (aux_net n ds) gs x = 0 /\ inflow (aux_net n ds) gs x = 0) as H.
          { pose proof aux_in as A. revert A. generalize (aux_net n ds). intros es A. induction es as [|[[u v] c] es IH]; intros gs; [auto|]. destruct gs as [|g gs]; [auto|]. cbn [outflow inflow].
            destruct (A u v c (elem_of_list_here _ _)). destruct (IH ltac:(intros; eapply A; apply elem_of_list_further; eassumption) gs) as [-> ->]. destruct (Nat.eqb_spec u x); [lia|]. destruct (Nat.eqb_spec v x); [lia|]. auto. }
          destruct (H (flat tr)) as [-> ->]. reflexivity. }
    exists (flat tr). split; [exact Feas|]. rewrite (value_cutflow (n + 2) _ n (S n) _ (fun x => (x =? n)%nat) aux_in ltac:(lia) Feas).
    - destruct (cutflow_s n ds (ranges T n ds B) tr Ltr) as [-> _]. unfold tr. clear -W. induction W as [|d f ds fs _ _ IH]; [reflexivity|]. cbn [zip zip_with map foldr]. rewrite IH. reflexivity.
    - apply Nat.eqb_refl.
    - apply Nat.eqb_neq. lia.
  Qed.
  Lemma fill_circ gs : feasible (aux_net n ds) n (S n) gs -> flow_value (aux_net n ds) n gs = low_sum ds -> exists fs, circulation ds fs.
  Proof.
    intros Feas V. destruct (unflat n ds gs (proj1 Feas)) as (tr & -> & F). pose proof (Forall2_length _ _ _ F) as L. destruct (cutflow_s n ds (ranges T n ds B) tr (eq_sym L)) as [C1 C2].
    assert (S1 : foldr (fun x a => x.1.2 + a) 0 tr = low_sum ds).
    { rewrite <- C1, <- V. symmetry. apply (value_cutflow (n + 2) _ n (S n)); [exact aux_in|lia|exact Feas|apply Nat.eqb_refl|apply Nat.eqb_neq; lia]. }
    assert (S2 : foldr (fun x a => x.2 + a) 0 tr = low_sum ds).
    { rewrite <- C2, <- V. symmetry. apply (value_cutflow (n + 2) _ n (S n)); [exact aux_in|lia|exact Feas| |rewrite Nat.eqb_refl; reflexivity]. destruct (Nat.eqb_spec n (S n)); [lia|reflexivity]. }
    assert (F1 : Forall2 (fun (d : bedge) x => x.1.2 = d.2.1) ds tr).
    { apply (saturated (fun x => x.1.2)); [|exact S1]. eapply Forall2_impl; [exact F|]. cbn. lia. }
    assert (F2 : Forall2 (fun (d : bedge) x => x.2 = d.2.1) ds tr).
    { apply (saturated (fun x => x.2)); [|exact S2]. eapply Forall2_impl; [exact F|]. cbn. lia. }
    set (fs := zip_with (fun (d : bedge) (x : Z * Z * Z) => x.1.1 + d.2.1) ds tr).
    assert (Lf : length fs = length ds) by (unfold fs; rewrite zip_with_length; lia).
    exists fs. split.
    - unfold fs, within. clear -F. induction F as [|d x ds tr H _ IH]; [constructor|]. cbn [zip_with]. constructor; [lia|exact IH].
    - assert (Z2 : Forall2 (fun (d : bedge * Z) x => x = (d.2 - d.1.2.1, d.1.2.1, d.1.2.1)) (zip ds fs) tr).
      { unfold fs. clear -F1 F2. revert F2. induction F1 as [|d [[a b] c] ds tr H1 _ IH]; intros F2; [constructor|]. inversion F2; subst. cbn in *. constructor; [cbn; f_equal; [f_equal|]; lia|]. auto. }
      intros x. destruct (decide (x < n)%nat) as [Hx|Hx].
      + destruct (flow_balance n ds (ranges T n ds B) tr fs (eq_sym L) Z2 Lf x Hx) as [<- <-]. apply (proj2 Feas); lia.
      + destruct (leaving_out n ds (ranges T n ds B) fs x ltac:(lia)) as [-> ->]. reflexivity.
  Qed.
  Context (Hl : low_sum ds <= it_max T).
  Lemma circ_answer : exists v, max_flow_of T (n + 2) (aux_net n ds) n (S n) = Ok v /\ is_max_flow (aux_net n ds) n (S n) v /\ is_min_cut (aux_net n ds) n (S n) v /\ v <= low_sum ds.
  Proof.
    destruct circ_setting as (S1 & S2 & S3 & S4 & S5).
    assert (U : forall gs, feasible (aux_net n ds) n (S n) gs -> flow_value (aux_net n ds) n gs <= low_sum ds).
    { intros gs Feas. rewrite (value_cutflow (n + 2) _ n (S n) _ (fun x => (x =? n)%nat) aux_in ltac:(lia) Feas (Nat.eqb_refl _)); [|apply Nat.eqb_neq; lia]. rewrite <- (aux_cut_s n ds (ranges T n ds B)). apply cutflow_le. apply Feas. }
    destruct (C24_max_flow T (n + 2) n (S n) (aux_net n ds) S1 S2 S3 S4 S5 (aux_network T n ds B)) as (d & d' & v & E1 & E2 & M1 & M2).
    - intros fs Feas. specialize (U fs Feas). lia.
    - exists v. unfold max_flow_of. rewrite E1. cbn [mbind res_bind]. rewrite E2. cbn [mbind res_bind snd]. split; [reflexivity|]. split; [exact M1|]. split; [exact M2|]. destruct M1 as [(fs & Feas & <-) _]. apply U, Feas.
  Qed.
End circ.
Close Scope Z_scope.
