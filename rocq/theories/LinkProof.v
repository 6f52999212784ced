(** Linking edges on a plain labelling. *)
From stdpp Require Import relations.
From Verif Require Import Prelude ArraySpec UnionFindModel UnionFindProof UnionFindSpec UnionFindRefProps LinkModel LinkSpec.

(** *** Connectivity *)
Lemma conn_sym es u v : conn es u v -> conn es v u.
Proof. unfold conn. induction 1 as [x|x y z H _ IH]; [apply rtc_refl|]. eapply rtc_r; [exact IH|]. tauto. Qed.
Lemma conn_trans es u v w : conn es u v -> conn es v w -> conn es u w.
Proof. apply rtc_transitive. Qed.
Lemma conn_mono es es' u v : (forall p, p ∈ es -> p ∈ es') -> conn es u v -> conn es' u v.
Proof. intros H. unfold conn. induction 1 as [x|x y z H1 _ IH]; [apply rtc_refl|]. eapply rtc_l; [|exact IH]. destruct H1 as [H1|H1]; apply H in H1; auto. Qed.
Lemma conn_snoc es a b u v : conn (es ++ [(a, b)]) u v <-> conn es u v \/ conn es u a /\ conn es b v \/ conn es u b /\ conn es a v.
Proof.
  split.
  - unfold conn at 1. induction 1 as [x|x y z H _ IH]; [left; apply rtc_refl|].
    assert (conn es x y \/ x = a /\ y = b \/ x = b /\ y = a) as [C|[[-> ->]|[-> ->]]].
    { rewrite !elem_of_app, !elem_of_list_singleton in H. destruct H as [[H|[= -> ->]]|[H|[= -> ->]]]; auto; left; apply rtc_once; auto. }
    + destruct IH as [IH|[[I1 I2]|[I1 I2]]]; [left|right; left|right; right]; eauto using conn_trans.
    + destruct IH as [IH|[[I1 I2]|[I1 I2]]]; [right; left; split; [apply rtc_refl|exact IH]|right; left; split; [apply rtc_refl|exact I2]|left; exact I2].
    + destruct IH as [IH|[[I1 I2]|[I1 I2]]]; [right; right; split; [apply rtc_refl|exact IH]|left; exact I2|right; right; split; [apply rtc_refl|exact I2]].
  - assert (forall x y, conn es x y -> conn (es ++ [(a, b)]) x y) as M by (intros x y; apply conn_mono; intros p Hp; apply elem_of_app; auto).
    assert (conn (es ++ [(a, b)]) a b) as E by (apply rtc_once; left; apply elem_of_app; right; apply elem_of_list_singleton; reflexivity).
    intros [H|[[H1 H2]|[H1 H2]]]; [auto| |]; [eapply conn_trans; [apply M, H1|]; eapply conn_trans; [exact E|apply M, H2]|].
    eapply conn_trans; [apply M, H1|]. eapply conn_trans; [apply conn_sym; exact E|apply M, H2].
Qed.

(** *** Counting *)
Lemma inj_length {A B} `{EqDecision B} (R : A -> B -> Prop) (la : list A) : forall lb, NoDup la -> (forall a, a ∈ la -> exists b, b ∈ lb /\ R a b) ->
  (forall a a' b, a ∈ la -> a' ∈ la -> R a b -> R a' b -> a = a') -> length la <= length lb.
Proof.
  induction la as [|a la IH]; intros lb N T I; [cbn; lia|]. apply NoDup_cons in N as [Na N].
  destruct (T a ltac:(left)) as (b & Hb & Rb). apply elem_of_Permutation in Hb as [lb' E]. rewrite E. cbn [length]. apply le_n_S. apply IH; [exact N| |].
  - intros a' Ha'. destruct (T a' ltac:(right; exact Ha')) as (b' & Hb' & Rb'). rewrite E in Hb'. apply elem_of_cons in Hb' as [->|Hb']; [|eauto].
    rewrite (I a a' b ltac:(left) ltac:(right; exact Ha') Rb Rb') in Na. contradiction.
  - intros x y c Hx Hy. apply I; right; assumption.
Qed.

(** *** Labellings *)
(** The vertices that carry their own name. *)
Definition reps (lab : list nat) : list nat := filter (fun r => lab !! r = Some r) (seq 0 (length lab)).
Record labels (n : nat) (es : list (nat * nat)) (lab : list nat) : Prop := {
  la_len : length lab = n;
  la_rep : forall i r, lab !! i = Some r -> lab !! r = Some r;
  la_conn : forall i j x y, lab !! i = Some x -> lab !! j = Some y -> (x = y <-> conn es i j) }.
Lemma labels_new n : labels n [] (seq 0 n).
Proof.
  split; [apply seq_length| |].
  - intros i r H. apply lookup_seq in H as [-> H]. apply lookup_seq. auto.
  - intros i j x y Hi Hj. apply lookup_seq in Hi as [-> _], Hj as [-> _]. cbn. split; [intros ->; apply rtc_refl|].
    intros H. inversion H as [|a b c [Hab|Hab]]; [reflexivity| |]; inversion Hab.
Qed.
Lemma reps_new n : reps (seq 0 n) = seq 0 n.
Proof.
  unfold reps. rewrite seq_length. assert (forall l : list nat, (forall x, x ∈ l -> seq 0 n !! x = Some x) -> filter (fun r => seq 0 n !! r = Some r) l = l) as H.
  { induction l as [|x l IH]; intros H; [reflexivity|]. rewrite filter_cons_True by (apply H; left). f_equal. apply IH. intros y Hy. apply H. right. exact Hy. }
  apply H. intros x Hx. apply elem_of_seq in Hx. apply lookup_seq. lia.
Qed.
Lemma elem_reps lab r : r ∈ reps lab <-> lab !! r = Some r.
Proof.
  unfold reps. rewrite elem_of_list_filter, elem_of_seq. split; [tauto|]. intros H. split; [exact H|]. apply lookup_lt_Some in H. lia.
Qed.
Lemma reps_NoDup lab : NoDup (reps lab).
Proof. apply NoDup_filter, NoDup_seq. Qed.

Definition relabel (lab : list nat) (x y : nat) : list nat := map (fun r => if r =? x then y else r) lab.
Lemma relabel_lookup lab x y i : relabel lab x y !! i = (fun r => if r =? x then y else r) <$> (lab !! i).
Proof. unfold relabel. change (map ?f ?l) with (f <$> l). apply list_lookup_fmap. Qed.
Lemma labels_link n es lab a b x y : labels n es lab -> lab !! a = Some x -> lab !! b = Some y -> labels n (es ++ [(a, b)]) (relabel lab x y).
Proof.
  intros [L1 L2 L3] Ha Hb. split.
  - unfold relabel. rewrite map_length. exact L1.
  - intros i r. rewrite !relabel_lookup. destruct (lab !! i) as [s|] eqn:Es; [|discriminate]. cbn. intros [= <-]. destruct (Nat.eqb_spec s x) as [->|Hne].
    + rewrite (L2 b y Hb). cbn. destruct (y =? x); reflexivity.
    + rewrite (L2 i s Es). cbn. rewrite (proj2 (Nat.eqb_neq _ _) Hne). reflexivity.
  - intros i j p q. rewrite !relabel_lookup. destruct (lab !! i) as [s|] eqn:Es; [|discriminate]. destruct (lab !! j) as [t|] eqn:Et; [|discriminate]. cbn. intros [= <-] [= <-].
    rewrite conn_snoc, <- (L3 i j s t Es Et), <- (L3 i a s x Es Ha), <- (L3 b j y t Hb Et), <- (L3 i b s y Es Hb), <- (L3 a j x t Ha Et).
    destruct (Nat.eqb_spec s x), (Nat.eqb_spec t x); subst; intuition congruence.
Qed.
Lemma reps_link lab x y : lab !! x = Some x -> lab !! y = Some y -> x <> y -> length (reps lab) = S (length (reps (relabel lab x y))).
Proof.
  intros Hx Hy Hne. assert (reps lab ≡ₚ x :: reps (relabel lab x y)) as E; [|rewrite E; reflexivity].
  apply NoDup_Permutation; [apply reps_NoDup| |].
  - apply NoDup_cons. split; [|apply reps_NoDup]. rewrite elem_reps, relabel_lookup, Hx. cbn. rewrite Nat.eqb_refl. congruence.
  - intros r. rewrite elem_of_cons, !elem_reps, relabel_lookup. destruct (decide (r = x)) as [->|Hr]; [tauto|].
    destruct (lab !! r) as [s|] eqn:Es; cbn; [|intuition congruence]. destruct (Nat.eqb_spec s x) as [->|Hs]; [|tauto]. split; [congruence|].
    intros [?|[= ?]]; [contradiction|]. subst y. congruence.
Qed.
Lemma relabel_id lab x : relabel lab x x = lab.
Proof. unfold relabel. rewrite <- (map_id lab) at 2. apply map_ext. intros r. destruct (Nat.eqb_spec r x); congruence. Qed.

(** The number of sets shrinks with more connections. *)
Lemma reps_mono n es es' lab lab' : labels n es lab -> labels n es' lab' -> (forall i j, i < n -> j < n -> conn es i j -> conn es' i j) -> length (reps lab') <= length (reps lab).
Proof.
  intros L L' H. apply (inj_length (fun r s => lab !! r = Some s)); [apply reps_NoDup| |].
  - intros r Hr. apply elem_reps in Hr. assert (r < length lab) as Hl by (apply lookup_lt_Some in Hr; rewrite (la_len _ _ _ L') in Hr; rewrite (la_len _ _ _ L); exact Hr).
    destruct (lookup_lt_is_Some_2 lab r Hl) as [s Hs]. exists s. split; [|exact Hs]. apply elem_reps. apply (la_rep _ _ _ L r s Hs).
  - intros r r' s Hr Hr' E E'. apply elem_reps in Hr, Hr'. apply (la_conn _ _ _ L' r r' r r' Hr Hr'). apply H; [apply lookup_lt_Some in E|apply lookup_lt_Some in E'|]; rewrite ?(la_len _ _ _ L) in *; auto.
    apply (la_conn _ _ _ L r r' s s E E'). reflexivity.
Qed.

(** *** The client *)
Definition trues (bs : list bool) : nat := length (filter (fun b => b = true) bs).
Lemma trues_cons b bs : trues (b :: bs) = (if b then 1 else 0) + trues bs.
Proof. unfold trues. destruct b; [rewrite filter_cons_True by reflexivity|rewrite filter_cons_False by discriminate]; reflexivity. Qed.
Lemma trues_app b b' : trues (b ++ b') = trues b + trues b'.
Proof. unfold trues. rewrite filter_app, app_length. reflexivity. Qed.
Lemma trues_le bs : trues bs <= length bs.
Proof. unfold trues. apply filter_length. Qed.

Section client.
  Context (n : nat) (Hn : (Z.of_nat n < 2 ^ 64)%Z).
  Definition linked (u : uf) (es : list (nat * nat)) (lab : list nat) : Prop := Lab n u lab /\ sizes_exact n u /\ labels n es lab.

  Lemma link_ok u es lab a b : linked u es lab -> a < n -> b < n ->
    exists u' lab' t, uf_link u (a, b) = Ok (u', t) /\ linked u' (es ++ [(a, b)]) lab' /\ length (reps lab) = (if t then 1 else 0) + length (reps lab') /\ (t = true <-> ~ conn es a b).
  Proof.
    intros (L & HS & LL) Ha Hb. unfold uf_link. cbn [fst snd].
    destruct (lab_some n u lab a L Ha) as (x & Ex & Rx). destruct (lab_some n u lab b L Hb) as (y & Ey & Ry).
    pose proof (lb_inv _ _ _ L) as I. destruct (find_ok n u a I Ha) as (u1 & x' & -> & R1 & _ & S1 & Z1 & I1). cbn [mbind res_bind].
    rewrite (root_det _ _ _ _ R1 Rx). clear R1 x'. pose proof (lab_same n u u1 lab L I1 S1) as L1.
    pose proof (sizes_same n u u1 I S1 Z1 HS) as HS1.
    destruct (lab_some n u1 lab b L1 Hb) as (y' & Ey' & Ry'). rewrite Ey in Ey'. injection Ey' as <-.
    destruct (find_ok n u1 b I1 Hb) as (u2 & y' & -> & R2 & _ & S2 & Z2 & I2). cbn [mbind res_bind].
    rewrite (root_det _ _ _ _ R2 Ry'). clear R2 y'. pose proof (lab_same n u1 u2 lab L1 I2 S2) as L2.
    pose proof (sizes_same n u1 u2 I1 S2 Z2 HS1) as HS2.
    pose proof (la_rep _ _ _ LL a x Ex) as Px. pose proof (la_rep _ _ _ LL b y Ey) as Py.
    pose proof (join_step n u2 lab x y Hn L2 HS2 ltac:(cbn; auto)) as J. cbn [uf_spec_step] in J. rewrite Px, Py in J.
    destruct (uf_join u2 x y) as [[u3 t]| |]; [|discriminate|contradiction]. destruct J as (lab' & E & L3 & HS3). injection E as <- <-.
    eexists u3, _, _. split; [reflexivity|]. split; [split; [exact L3|split; [exact HS3|]]; apply (labels_link n es lab a b x y LL Ex Ey)|].
    pose proof (la_conn _ _ _ LL a b x y Ex Ey) as C. destruct (Nat.eqb_spec x y) as [<-|Hne]; cbn.
    - split; [change (map ?f ?l) with (relabel lab x x); rewrite relabel_id; reflexivity|]. split; [discriminate|]. intros H. exfalso. apply H, C. reflexivity.
    - split; [apply (reps_link lab x y Px Py Hne)|]. split; [|reflexivity]. intros _ H. apply Hne, C, H.
  Qed.

  Lemma link_run : forall es u es0 lab, linked u es0 lab -> Forall (fun p => p.1 < n /\ p.2 < n) es ->
    exists u' lab' bs, run uf_link u es = Ok (u', bs) /\ length bs = length es /\ linked u' (es0 ++ es) lab' /\ length (reps lab) = trues bs + length (reps lab').
  Proof.
    induction es as [|[a b] es IH]; intros u es0 lab H F.
    - exists u, lab, []. split; [reflexivity|]. split; [reflexivity|]. rewrite app_nil_r. split; [exact H|reflexivity].
    - apply Forall_cons in F as [[Ha Hb] F]. cbn [fst snd] in *. destruct (link_ok u es0 lab a b H Ha Hb) as (u1 & lab1 & t & E1 & H1 & C1 & _).
      destruct (IH u1 _ lab1 H1 F) as (u2 & lab2 & bs & E2 & Hl & H2 & C2). exists u2, lab2, (t :: bs). cbn [run]. rewrite E1. cbn [mbind res_bind]. rewrite E2.
      split; [reflexivity|]. split; [cbn; lia|]. rewrite <- app_assoc in H2. split; [exact H2|]. rewrite trues_cons. lia.
  Qed.
  Lemma linked_new : linked (uf_new n) [] (seq 0 n).
  Proof. split; [apply lab_new|]. split; [apply sizes_new|apply labels_new]. Qed.

  Lemma link_all es : Forall (fun p => p.1 < n /\ p.2 < n) es ->
    exists u lab bs, uf_link_all n es = Ok (u, bs) /\ length bs = length es /\ linked u es lab /\ n = trues bs + length (reps lab).
  Proof.
    intros F. destruct (link_run es _ [] _ linked_new F) as (u & lab & bs & E & H1 & H2 & H3). exists u, lab, bs. split; [exact E|]. split; [exact H1|]. split; [exact H2|].
    rewrite reps_new, seq_length in H3. exact H3.
  Qed.
End client.

(** The sets listed by groups are as many as the representatives. *)
Lemma groups_count n es lab : labels n es lab -> length (lab_groups lab) = length (reps lab).
Proof.
  intros L. unfold lab_groups, reps. generalize (seq 0 (length lab)) at 2 3 as l.
  induction l as [|r l IH]; [reflexivity|]. cbn [map]. destruct (decide (lab !! r = Some r)) as [H|H].
  - rewrite (filter_cons_True _ r) by exact H. rewrite filter_cons_True; [cbn; f_equal; exact IH|]. intros E.
    apply (not_elem_of_nil r). rewrite <- E. apply elem_of_list_filter. split; [exact H|]. apply elem_of_seq. apply lookup_lt_Some in H. lia.
  - rewrite (filter_cons_False _ r) by exact H. rewrite filter_cons_False; [exact IH|]. intros E. apply E.
    destruct (filter (fun i => lab !! i = Some r) (seq 0 (length lab))) as [|i f] eqn:Ef; [reflexivity|].
    assert (i ∈ filter (fun i => lab !! i = Some r) (seq 0 (length lab))) as Hi by (rewrite Ef; left). apply elem_of_list_filter in Hi as [Hi _].
    contradict H. apply (la_rep _ _ _ L i r Hi).
Qed.
