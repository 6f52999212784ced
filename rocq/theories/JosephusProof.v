From Coq Require Import Sorting.Sorted.
From Verif Require Import Prelude ArraySpec FenwickModel FenwickSpec FenwickProof TallyModel TallySpec TallyProof LexModel LexProof JosephusModel JosephusSpec.
Close Scope Z_scope.

Definition rot (p : nat) (b : list nat) : list nat := drop p b ++ take p b.
Lemma turn_rot p b : p < length b -> turn (rot p b) = rot (S p) b.
Proof. intros H. unfold rot. destruct (lookup_lt_is_Some_2 b p H) as [x Hx]. rewrite (drop_S b x p Hx), (take_S_r b p x Hx). cbn [app turn]. rewrite <- app_assoc. reflexivity. Qed.
Lemma rot_all b : rot (length b) b = rot 0 b.
Proof. unfold rot. rewrite drop_all, firstn_all, drop_0, take_0, app_nil_r. reflexivity. Qed.
Lemma turns_rot k b p : 0 < length b -> p <= length b -> Nat.iter k turn (rot p b) = rot ((p + k) mod length b) b.
Proof.
  intros Hb Hp. induction k as [|k IH].
  - cbn. rewrite Nat.add_0_r. destruct (decide (p = length b)) as [->|]; [rewrite Nat.mod_same, rot_all by lia; reflexivity|rewrite Nat.mod_small by lia; reflexivity].
  - change (Nat.iter (S k) turn (rot p b)) with (turn (Nat.iter k turn (rot p b))). rewrite IH. pose proof (Nat.mod_upper_bound (p + k) (length b) ltac:(lia)) as Hm. rewrite turn_rot by exact Hm.
    replace (p + S k) with ((p + k) + 1) by lia. rewrite <- (Nat.add_mod_idemp_l (p + k) 1) by lia. set (m := (p + k) mod length b) in *. destruct (decide (S m = length b)) as [E|].
    + replace (m + 1) with (length b) by lia. rewrite Nat.mod_same, E, rot_all by lia. reflexivity.
    + rewrite Nat.mod_small by lia. f_equal. lia.
Qed.
Lemma below_sorted b : StronglySorted lt b -> forall i x, b !! i = Some x -> below x b = i.
Proof.
  induction 1 as [|y b S IH F]; intros i x Hx; [discriminate|]. unfold below. rewrite filter_cons. destruct i as [|i]; cbn in Hx.
  - injection Hx as <-. rewrite decide_False by lia. apply below_none. apply Forall_forall. intros z Hz. rewrite Forall_forall in F. specialize (F z Hz). lia.
  - rewrite decide_True by (rewrite Forall_lookup in F; exact (F i x Hx)). cbn [length]. f_equal. exact (IH i x Hx).
Qed.
Lemma sorted_out b p : StronglySorted lt b -> StronglySorted lt (take p b ++ drop (S p) b).
Proof.
  revert p. induction b as [|y b IH]; intros p S; [rewrite take_nil, drop_nil; constructor|]. apply StronglySorted_inv in S as [S F]. destruct p as [|p]; cbn; [exact S|]. constructor; [apply IH; exact S|].
  apply Forall_app. split; [apply Forall_take; exact F|apply Forall_drop; exact F].
Qed.
Lemma sorted_nodup b : StronglySorted lt b -> NoDup b.
Proof. induction 1 as [|y b S IH F]; constructor; [|exact IH]. intros H. rewrite Forall_forall in F. specialize (F y H). lia. Qed.
Lemma game n k : (Z.of_nat n < 2 ^ 64)%Z -> forall left b t pos out, length b = left -> StronglySorted lt b -> Forall (fun x => x < n) b -> FInv 0%Z Z.add t (tally n b) -> pos <= left ->
  exists s o, rfor (rev (range_incl 1 left)) (josephus_turn k) (t, pos, out) = Ok s /\ s.2 = out ++ o /\ leaves k (rot pos b) o.
Proof.
  intros HZ. induction left as [|left IH]; intros b t pos out L S F I Hp.
  - destruct b; [|discriminate]. exists (t, pos, out), []. split; [reflexivity|]. split; [symmetry; apply app_nil_r|]. unfold rot. rewrite drop_nil, take_nil. constructor.
  - replace (rev (range_incl 1 (Datatypes.S left))) with (Datatypes.S left :: rev (range_incl 1 left)).
    2: { unfold range_incl. rewrite !Nat.sub_succ, !Nat.sub_0_r, seq_S, rev_app_distr. reflexivity. }
    cbn [rfor]. unfold josephus_turn at 2. set (p := (pos + k) mod Datatypes.S left). assert (Hpl : p < length b) by (rewrite L; apply Nat.mod_upper_bound; lia).
    destruct (bag_kth n t b p I HZ F (sorted_nodup b S) Hpl) as (x & Ex & Hx & Bx). apply elem_of_list_lookup in Hx as (i & Hi). pose proof (below_sorted b S i x Hi) as Bi. assert (i = p) as -> by lia.
    rewrite Ex. cbn [mbind res_bind]. set (b' := take p b ++ drop (Datatypes.S p) b).
    assert (P : b ≡ₚ x :: b') by (rewrite <- (take_drop_middle b p x Hi) at 1; unfold b'; symmetry; apply Permutation_middle).
    destruct (bag_remove n t b b' x I ltac:(rewrite Forall_lookup in F; exact (F p x Hi)) P) as (t' & Et & I'). rewrite Et. cbn [mbind res_bind].
    assert (Lt : length (take p b) = p) by (rewrite take_length; lia).
    destruct (IH b' t' p (out ++ [x])) as (s & o & Es & Eo & Lo).
    + apply Permutation_length in P. cbn [length] in P. lia.
    + apply sorted_out. exact S.
    + apply Forall_app. split; [apply Forall_take|apply Forall_drop]; exact F.
    + exact I'.
    + lia.
    + exists s, (x :: o). split; [exact Es|]. split; [rewrite Eo, <- app_assoc; reflexivity|].
      apply leaves_cons with (q' := rot p b'); [|exact Lo]. rewrite turns_rot by lia. rewrite L. fold p. unfold rot, b'.
      rewrite (drop_S b x p Hi). rewrite drop_app_alt, take_app_alt by (symmetry; exact Lt). reflexivity.
Qed.
Lemma seq_sorted s n : StronglySorted lt (seq s n).
Proof. revert s. induction n as [|n IH]; intros s; cbn; constructor; [apply IH|]. apply Forall_forall. intros x Hx%elem_of_seq. lia. Qed.
Lemma josephus_ok n k : (Z.of_nat n < 2 ^ 64)%Z -> exists out, josephus n k = Ok out /\ leaves k (seq 0 n) out.
Proof.
  intros HZ. unfold josephus. destruct (all_ones_ok n) as (t & E & I). rewrite E. cbn [mbind res_bind].
  destruct (game n k HZ n (seq 0 n) t 0 [] (seq_length _ _) (seq_sorted _ _) ltac:(apply Forall_forall; intros x Hx%elem_of_seq; lia) I ltac:(lia)) as (s & o & Es & Eo & Lo).
  rewrite Es. cbn [mbind res_bind]. exists o. split; [rewrite Eo; reflexivity|]. unfold rot in Lo. rewrite drop_0, take_0, app_nil_r in Lo. exact Lo.
Qed.
(** One game has one outcome, and everybody leaves once. *)
Lemma turns_nil k : Nat.iter k turn [] = [].
Proof. induction k as [|k IH]; [reflexivity|]. change (turn (Nat.iter k turn []) = []). rewrite IH. reflexivity. Qed.
Lemma leaves_unique k q o o' : leaves k q o -> leaves k q o' -> o = o'.
Proof.
  intros H. revert o'. induction H as [|q x q' o E H IH]; intros o' H'; inversion H' as [|q2 x2 q2' o2 E2 H2]; subst; [reflexivity| | |].
  - rewrite turns_nil in E2. discriminate.
  - rewrite turns_nil in E. discriminate.
  - rewrite E in E2. injection E2 as <- <-. f_equal. apply IH. exact H2.
Qed.
Lemma turn_perm q : turn q ≡ₚ q.
Proof. destruct q as [|x q]; [reflexivity|]. cbn. rewrite Permutation_app_comm. reflexivity. Qed.
Lemma turns_perm k q : Nat.iter k turn q ≡ₚ q.
Proof. induction k as [|k IH]; [reflexivity|]. change (turn (Nat.iter k turn q) ≡ₚ q). rewrite turn_perm. exact IH. Qed.
Lemma leaves_perm k q o : leaves k q o -> o ≡ₚ q.
Proof. induction 1 as [|q x q' o E H IH]; [reflexivity|]. rewrite IH, <- E. apply turns_perm. Qed.
