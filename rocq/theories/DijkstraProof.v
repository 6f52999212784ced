(** Proof of src/graph/shortest_path.rs. *)
From Verif Require Import Prelude IntModel HeapModel DijkstraModel DijkstraSpec.
Open Scope Z_scope.

Lemma usize_range x : in_ty usize x <-> 0 <= x <= 2 ^ 64 - 1.
Proof. reflexivity. Qed.

(** Out-degrees of the vertices not in P. *)
Definition open_deg (g : wgraph) (P : list nat) : nat :=
  sum_list_with (fun u => if decide (u ∈ P) then 0%nat else length (default [] (g !! u))) (seq 0 (length g)).

Lemma sum_list_with_split {A} `{EqDecision A} (f h : A -> nat) (l : list A) x : NoDup l -> x ∈ l -> (forall y, y <> x -> f y = h y) ->
  (sum_list_with f l + h x = sum_list_with h l + f x)%nat.
Proof.
  intros Hnd Hx Heq. induction Hnd as [|y l Hy Hnd IH]; [inversion Hx|]. cbn [sum_list_with].
  apply elem_of_cons in Hx as [->|Hx].
  - assert (sum_list_with f l = sum_list_with h l); [|lia]. clear -Hy Heq. induction l as [|z l IH]; [reflexivity|]. cbn [sum_list_with].
    rewrite IH by (intros H; apply Hy; right; exact H). rewrite Heq; [lia|]. intros ->. apply Hy. left.
  - specialize (IH Hx). rewrite (Heq y); [lia|]. intros ->. contradiction.
Qed.

Lemma open_deg_cons g P u es : g !! u = Some es -> u ∉ P -> (open_deg g (u :: P) + length es = open_deg g P)%nat.
Proof.
  intros Hu HP. unfold open_deg.
  pose proof (sum_list_with_split (fun x => if decide (x ∈ u :: P) then 0%nat else length (default [] (g !! x)))
    (fun x => if decide (x ∈ P) then 0%nat else length (default [] (g !! x))) (seq 0 (length g)) u) as H.
  cbn beta in H. rewrite (decide_True (P := u ∈ u :: P)) in H by left. rewrite (decide_False (P := u ∈ P)) in H by exact HP. rewrite Hu in H.
  change (length (default [] (Some es))) with (length es) in H. rewrite Nat.add_0_r in H.
  apply H; [apply NoDup_seq| |].
  - apply elem_of_seq. apply lookup_lt_Some in Hu. lia.
  - intros y Hy. destruct (decide (y ∈ P)) as [HyP|HyP]; [rewrite decide_True by (right; exact HyP); reflexivity|].
    rewrite decide_False; [reflexivity|]. rewrite elem_of_cons. naive_solver.
Qed.

Lemma sum_list_with_ext {A} (f h : A -> nat) l : (forall x, x ∈ l -> f x = h x) -> sum_list_with f l = sum_list_with h l.
Proof.
  induction l as [|x l IH]; intros H; [reflexivity|]. cbn [sum_list_with]. rewrite (H x) by left.
  rewrite IH; [reflexivity|]. intros y Hy. apply H. right. exact Hy.
Qed.

Lemma open_deg_nil g : open_deg g [] = length (concat g).
Proof.
  unfold open_deg. rewrite (sum_list_with_ext _ (fun u => length (default [] (g !! u)))).
  2:{ intros x _. apply decide_False. intros H. inversion H. }
  induction g as [|es g IH] using rev_ind; [reflexivity|].
  rewrite app_length. cbn [length]. rewrite Nat.add_1_r, seq_S. rewrite concat_app, app_length, <- IH. cbn [concat]. rewrite app_nil_r.
  rewrite sum_list_with_app. f_equal.
  - apply sum_list_with_ext. intros x Hx. apply elem_of_seq in Hx. rewrite lookup_app_l by lia. reflexivity.
  - cbn [sum_list_with]. rewrite Nat.add_0_l, (lookup_app_r g [es] (length g)), Nat.sub_diag, Nat.add_0_r by lia. reflexivity.
Qed.

(** [rfor_inv] and [rloop_inv_idx] for loops that may panic, with a reason [P]. *)
Lemma rfor_inv_p {A S} (I : list A -> S -> Prop) (P : Prop) (xs : list A) (body : A -> S -> res S) s :
  I [] s ->
  (forall done x rest s, xs = done ++ x :: rest -> I done s ->
     (body x s = Panic /\ P) \/ exists s', body x s = Ok s' /\ I (done ++ [x]) s') ->
  (rfor xs body s = Panic /\ P) \/ exists s', rfor xs body s = Ok s' /\ I xs s'.
Proof.
  intros H0 Hstep.
  assert (forall rest done s, xs = done ++ rest -> I done s ->
    (rfor rest body s = Panic /\ P) \/ exists s', rfor rest body s = Ok s' /\ I xs s') as H.
  { induction rest as [|x rest IH]; intros done s1 Hxs HI.
    - right. exists s1. rewrite app_nil_r in Hxs. subst done. auto.
    - cbn [rfor]. destruct (Hstep done x rest s1 Hxs HI) as [[E HP]|(s2 & E & HI2)]; rewrite E; cbn [mbind res_bind]; [left; auto|].
      apply (IH (done ++ [x])); [rewrite <- app_assoc; exact Hxs|exact HI2]. }
  apply (H xs []); auto.
Qed.

Lemma rloop_inv_p {S R} (I : nat -> S -> Prop) (Q : R -> Prop) (P : Prop) (step : S -> res (S + R)) :
  (forall m s, I m s -> (step s = Panic /\ P) \/ exists o, step s = Ok o /\
     match o with inl s' => exists m', (m' < m)%nat /\ I m' s' | inr r => Q r end) ->
  forall fuel m s, I m s -> (m < fuel)%nat -> (rloop fuel step s = Panic /\ P) \/ exists r, rloop fuel step s = Ok r /\ Q r.
Proof.
  intros Hstep fuel. induction fuel as [|fuel IH]; intros m s HI Hm; [lia|].
  cbn [rloop]. destruct (Hstep m s HI) as [[E HP]|(o & Ho & Hmatch)]; [rewrite E; left; auto|].
  rewrite Ho. cbn. destruct o as [s'|r].
  - destruct Hmatch as (m' & Hlt & HI'). apply (IH m'); [exact HI'|lia].
  - right. exists r. auto.
Qed.

Section Proof.
  Context (B : binheap (reverse (Z * nat))) (content : bh B -> list (reverse (Z * nat))).
  Context (HB : binheap_contract (rev_le pair_le) B content).
  Context (g : wgraph) (s : nat) (Hg : nonneg g) (Hs : (s < length g)%nat).

  Definition bag (q : bh B) : list (Z * nat) := map rev_get (content q).

  Lemma bag_push q x : bag (mh_push B q x) ≡ₚ x :: bag q.
  Proof. unfold bag, mh_push. rewrite (bc_push _ _ _ HB). reflexivity. Qed.

  Lemma bag_pop q : match mh_pop B q with
    | (None, _) => bag q = []
    | (Some x, q') => bag q ≡ₚ x :: bag q' /\ forall y, y ∈ bag q -> pair_le x y
    end.
  Proof.
    unfold mh_pop, bag. destruct (bh_pop B q) as [[x q']|] eqn:E.
    - apply (bc_pop_some _ _ _ HB) in E as [Hp Hle]. split; [rewrite Hp; reflexivity|].
      intros y Hy. apply elem_of_list_fmap in Hy as (z & -> & Hz). apply Hle in Hz. exact Hz.
    - apply (bc_pop_none _ _ _ HB) in E. rewrite E. reflexivity.
  Qed.

  Lemma walk_nonneg v w : walk g s v w -> 0 <= w.
  Proof. induction 1 as [|u w es v c _ IH Hu Hc]; [lia|]. pose proof (Hg _ _ _ _ Hu Hc). lia. Qed.

  (** P: vertices whose edges have been relaxed. *)
  Record inv (P : list nat) (dis : list (option Z)) (q : bh B) : Prop := {
    i_len : length dis = length g;
    i_walk : forall v d, dis !! v = Some (Some d) -> walk g s v d;
    i_src : dis !! s = Some (Some 0);
    i_done : forall u, u ∈ P -> exists d, dis !! u = Some (Some d) /\ (d, u) ∉ bag q;
    i_relaxed : forall u d es v c, u ∈ P -> dis !! u = Some (Some d) -> g !! u = Some es -> (v, c) ∈ es ->
      exists d', dis !! v = Some (Some d') /\ d' <= d + c <= 2 ^ 64 - 1;
    i_open : forall v d, dis !! v = Some (Some d) -> v ∉ P -> (d, v) ∈ bag q;
    i_bag : forall d v, (d, v) ∈ bag q -> exists d', dis !! v = Some (Some d') /\ d' <= d;
    i_mono : forall u d d' v, u ∈ P -> dis !! u = Some (Some d) -> (d', v) ∈ bag q -> d <= d';
    i_nodup : NoDup (bag q) }.

  (** Every walk ends in a settled vertex or is at least as long as some queue entry. *)
  Lemma inv_walk P dis q : inv P dis q -> forall v w, walk g s v w ->
    (v ∈ P /\ exists d, dis !! v = Some (Some d) /\ d <= w) \/ exists d x, (d, x) ∈ bag q /\ d <= w.
  Proof.
    intros H v w Hw. induction Hw as [|u w es v c Hw IH Hu Hc].
    - destruct (decide (s ∈ P)) as [HP|HP].
      + left. split; [exact HP|]. exists 0. split; [apply (i_src _ _ _ H)|lia].
      + right. exists 0, s. split; [|lia]. apply (i_open _ _ _ H); [apply (i_src _ _ _ H)|exact HP].
    - pose proof (Hg _ _ _ _ Hu Hc) as Hc0. destruct IH as [[HP (d & Hd & Hle)]|(d & x & Hx & Hle)].
      + destruct (i_relaxed _ _ _ H _ _ _ _ _ HP Hd Hu Hc) as (d' & Hd' & Hle').
        destruct (decide (v ∈ P)) as [HvP|HvP].
        * left. split; [exact HvP|]. exists d'. split; [exact Hd'|lia].
        * right. exists d', v. split; [|lia]. apply (i_open _ _ _ H); assumption.
      + right. exists d, x. split; [exact Hx|lia].
  Qed.

  (** Invariant inside the edge loop of u, popped with distance d. *)
  Record inv2 (P : list nat) (d : Z) (u : nat) (es0 : list (nat * Z)) (dis : list (option Z)) (q : bh B) : Prop := {
    j_len : length dis = length g;
    j_walk : forall v d, dis !! v = Some (Some d) -> walk g s v d;
    j_src : dis !! s = Some (Some 0);
    j_u : dis !! u = Some (Some d);
    j_done : forall x, x ∈ u :: P -> exists d, dis !! x = Some (Some d) /\ (d, x) ∉ bag q;
    j_relaxed : forall x dx es v c, x ∈ P -> dis !! x = Some (Some dx) -> g !! x = Some es -> (v, c) ∈ es ->
      exists d', dis !! v = Some (Some d') /\ d' <= dx + c <= 2 ^ 64 - 1;
    j_relaxed_u : forall v c, (v, c) ∈ es0 -> exists d', dis !! v = Some (Some d') /\ d' <= d + c <= 2 ^ 64 - 1;
    j_open : forall v d, dis !! v = Some (Some d) -> v ∉ u :: P -> (d, v) ∈ bag q;
    j_bag : forall d v, (d, v) ∈ bag q -> exists d', dis !! v = Some (Some d') /\ d' <= d;
    j_mono : forall x dx, x ∈ P -> dis !! x = Some (Some dx) -> dx <= d;
    j_ge : forall d' v, (d', v) ∈ bag q -> d <= d';
    j_nodup : NoDup (bag q) }.

  Lemma relax_ok P d u es es0 v c dis q : inv2 P d u es0 dis q -> g !! u = Some es -> (v, c) ∈ es -> (v < length g)%nat -> d + c <= 2 ^ 64 - 1 ->
    exists dis' q', relax B d (v, c) (dis, q) = Ok (dis', q') /\ inv2 P d u (es0 ++ [(v, c)]) dis' q' /\
      (length (bag q') <= S (length (bag q)))%nat.
  Proof.
    intros H Hu Hc Hv Hmax. pose proof (Hg _ _ _ _ Hu Hc) as Hc0.
    assert (Hd0 : 0 <= d) by (eapply walk_nonneg, (j_walk _ _ _ _ _ _ H), (j_u _ _ _ _ _ _ H)).
    unfold relax. destruct (lookup_lt_is_Some_2 dis v) as [dv Hdv]; [rewrite (j_len _ _ _ _ _ _ H); exact Hv|].
    rewrite (vget_ok _ _ _ Hdv). cbn [mbind res_bind]. rewrite iadd_ok by (rewrite usize_range; lia). cbn [mbind res_bind].
    assert (Hkeep : (exists x, dv = Some x /\ x <= d + c) -> inv2 P d u (es0 ++ [(v, c)]) dis q).
    { intros (x & -> & Hx). destruct H. split; try assumption. intros v' c' [Hin|Hin]%elem_of_app; [auto|].
      apply elem_of_list_singleton in Hin as [= -> ->]. exists x. split; [reflexivity|lia] || (split; [exact Hdv|lia]). }
    assert (Hrel : (forall x, dv = Some x -> d + c < x) -> exists dis' q',
      (dis ← vset dis v (Some (d + c)); Ok (dis, mh_push B q (d + c, v))) = Ok (dis', q') /\ inv2 P d u (es0 ++ [(v, c)]) dis' q' /\
      (length (bag q') <= S (length (bag q)))%nat).
    { intros Hlt. rewrite vset_ok by (rewrite (j_len _ _ _ _ _ _ H); exact Hv). cbn [mbind res_bind].
      exists (<[v:=Some (d + c)]> dis), (mh_push B q (d + c, v)). split; [reflexivity|].
      split; [|rewrite (Permutation_length (bag_push q (d + c, v))); cbn [length]; lia].
      assert (Hvu : v ∉ u :: P).
      { intros [->|Hin]%elem_of_cons.
        - rewrite (j_u _ _ _ _ _ _ H) in Hdv. injection Hdv as <-. specialize (Hlt d eq_refl). lia.
        - destruct (j_done _ _ _ _ _ _ H v) as (x & Hx & _); [right; exact Hin|]. rewrite Hx in Hdv. injection Hdv as <-.
          specialize (Hlt x eq_refl). pose proof (j_mono _ _ _ _ _ _ H _ _ Hin Hx). lia. }
      assert (Hlv : (v < length dis)%nat) by (apply lookup_lt_Some in Hdv; exact Hdv).
      assert (Hother : forall x, x <> v -> <[v:=Some (d + c)]> dis !! x = dis !! x) by (intros x Hx; apply list_lookup_insert_ne; congruence).
      assert (Hsame : <[v:=Some (d + c)]> dis !! v = Some (Some (d + c))) by (apply list_lookup_insert; exact Hlv).
      assert (Hnew : forall d', (d', v) ∈ bag q -> d + c < d').
      { intros d' Hin. apply (j_bag _ _ _ _ _ _ H) in Hin as (x & Hx & Hle). rewrite Hx in Hdv. injection Hdv as <-.
        specialize (Hlt x eq_refl). lia. }
      assert (Hbag : forall y, y ∈ bag (mh_push B q (d + c, v)) <-> y = (d + c, v) \/ y ∈ bag q) by (intros y; rewrite bag_push; apply elem_of_cons).
      assert (Hle : forall x dx, dis !! x = Some (Some dx) -> exists dx', <[v:=Some (d + c)]> dis !! x = Some (Some dx') /\ dx' <= dx).
      { intros x dx Hx. destruct (decide (x = v)) as [->|Hne]; [|rewrite Hother by exact Hne; exists dx; split; [exact Hx|lia]].
        exists (d + c). split; [exact Hsame|]. rewrite Hx in Hdv. injection Hdv as <-. specialize (Hlt dx eq_refl). lia. }
      destruct H as [J1 J2 J3 J4 J5 J6 J7 J8 J9 J10 J11 J12]. split.
      - rewrite insert_length. exact J1.
      - intros x dx Hx. destruct (decide (x = v)) as [->|Hne]; [|rewrite Hother in Hx by exact Hne; apply J2; exact Hx].
        rewrite Hsame in Hx. injection Hx as <-. eapply walk_snoc; [apply J2, J4|exact Hu|exact Hc].
      - destruct (decide (s = v)) as [->|Hne]; [|rewrite Hother by exact Hne; exact J3].
        rewrite J3 in Hdv. injection Hdv as <-. specialize (Hlt 0 eq_refl). lia.
      - rewrite Hother; [exact J4|]. intros ->. apply Hvu. left.
      - intros x Hx. assert (x <> v) by (intros ->; contradiction). destruct (J5 x Hx) as (dx & Hdx & Hn). exists dx.
        rewrite Hother by assumption. split; [exact Hdx|]. rewrite Hbag. intros [[= _ ->]|Hin]; [contradiction|contradiction].
      - intros x dx es1 v1 c1 Hx Hdx Hes Hin. assert (x <> v) by (intros ->; apply Hvu; right; exact Hx).
        rewrite Hother in Hdx by assumption. destruct (J6 _ _ _ _ _ Hx Hdx Hes Hin) as (d1 & Hd1 & Hle1).
        destruct (Hle _ _ Hd1) as (d2 & Hd2 & Hle2). exists d2. split; [exact Hd2|lia].
      - intros v1 c1 [Hin|Hin]%elem_of_app.
        + destruct (J7 _ _ Hin) as (d1 & Hd1 & Hle1). destruct (Hle _ _ Hd1) as (d2 & Hd2 & Hle2). exists d2. split; [exact Hd2|lia].
        + apply elem_of_list_singleton in Hin as [= -> ->]. exists (d + c). split; [exact Hsame|lia].
      - intros x dx Hx HxP. apply Hbag. destruct (decide (x = v)) as [->|Hne].
        + rewrite Hsame in Hx. injection Hx as <-. left. reflexivity.
        + rewrite Hother in Hx by exact Hne. right. apply J8; assumption.
      - intros d1 x Hin. apply Hbag in Hin as [[= -> ->]|Hin]; [exists (d + c); split; [exact Hsame|lia]|].
        destruct (J9 _ _ Hin) as (d2 & Hd2 & Hle2). destruct (Hle _ _ Hd2) as (d3 & Hd3 & Hle3). exists d3. split; [exact Hd3|lia].
      - intros x dx Hx Hdx. assert (x <> v) by (intros ->; apply Hvu; right; exact Hx). rewrite Hother in Hdx by assumption. eapply J10; eassumption.
      - intros d1 x Hin. apply Hbag in Hin as [[= -> ->]|Hin]; [lia|]. eapply J11. exact Hin.
      - rewrite bag_push. apply NoDup_cons. split; [|exact J12]. intros Hin. specialize (Hnew _ Hin). lia. }
    destruct dv as [x|].
    - destruct (Z.ltb_spec (d + c) x) as [Hlt|Hge].
      + apply Hrel. intros y [= <-]. exact Hlt.
      + exists dis, q. split; [reflexivity|]. split; [|lia]. apply Hkeep. exists x. auto.
    - apply Hrel. discriminate.
  Qed.

  Lemma relax_panic P d u es es0 v c dis q : inv2 P d u es0 dis q -> g !! u = Some es -> (v, c) ∈ es ->
    (length g <= v)%nat \/ 2 ^ 64 - 1 < d + c -> relax B d (v, c) (dis, q) = Panic.
  Proof.
    intros H Hu Hc Hbad. unfold relax. destruct (Nat.lt_ge_cases v (length g)) as [Hv|Hv].
    - destruct (lookup_lt_is_Some_2 dis v) as [dv Hdv]; [rewrite (j_len _ _ _ _ _ _ H); exact Hv|].
      rewrite (vget_ok _ _ _ Hdv). cbn [mbind res_bind]. unfold iadd. rewrite chk_panic; [reflexivity|]. rewrite usize_range. lia.
    - rewrite vget_panic by (rewrite (j_len _ _ _ _ _ _ H); exact Hv). reflexivity.
  Qed.

  (** An edge of a reachable vertex that the loop cannot take. *)
  Definition bad : Prop := exists u d es v c, shortest g s u d /\ g !! u = Some es /\ (v, c) ∈ es /\
    ((length g <= v)%nat \/ 2 ^ 64 - 1 < d + c).

  Definition result (dis : list (option Z)) : Prop :=
    length dis = length g /\ forall v, (v < length g)%nat ->
      (forall d, dis !! v = Some (Some d) <-> shortest g s v d) /\
      (dis !! v = Some None <-> ~ exists w, walk g s v w).

  Lemma inv_final P dis q : inv P dis q -> bag q = [] -> result dis /\ ~ bad.
  Proof.
    intros H E. split.
    2:{ intros (u & d & es & v & c & [Hw Hmin] & Hu & Hc & Hbad).
      destruct (inv_walk P dis q H u d Hw) as [[HP (d' & Hd' & Hle)]|(d' & x & Hx & _)]; [|rewrite E in Hx; inversion Hx].
      assert (d' = d) as -> by (specialize (Hmin d' (i_walk _ _ _ H _ _ Hd')); lia).
      destruct (i_relaxed _ _ _ H _ _ _ _ _ HP Hd' Hu Hc) as (dv & Hdv & Hle').
      apply lookup_lt_Some in Hdv. rewrite (i_len _ _ _ H) in Hdv. lia. }
    split; [apply (i_len _ _ _ H)|]. intros v Hv.
    assert (Hreach : forall w, walk g s v w -> exists d, dis !! v = Some (Some d) /\ d <= w).
    { intros w Hw. destruct (inv_walk P dis q H v w Hw) as [[_ Hd]|(d & x & Hx & _)]; [exact Hd|]. rewrite E in Hx. inversion Hx. }
    destruct (lookup_lt_is_Some_2 dis v) as [dv Hdv]; [rewrite (i_len _ _ _ H); exact Hv|]. split.
    - intros d. split.
      + intros Hd. split; [apply (i_walk _ _ _ H); exact Hd|]. intros w Hw. destruct (Hreach w Hw) as (d' & Hd' & Hle). congruence.
      + intros [Hw Hmin]. destruct (Hreach d Hw) as (d' & Hd' & Hle). rewrite Hd'. do 2 f_equal.
        specialize (Hmin d' (i_walk _ _ _ H _ _ Hd')). lia.
    - split.
      + intros Hn [w Hw]. destruct (Hreach w Hw) as (d & Hd & _). congruence.
      + intros Hn. rewrite Hdv. destruct dv as [d|]; [|reflexivity]. exfalso. apply Hn. exists d. apply (i_walk _ _ _ H), Hdv.
  Qed.

  (** One turn of the while loop. *)
  Lemma turn P dis q : inv P dis q ->
    match mh_pop B q with
    | (None, _) => bag q = []
    | (Some (d, u), q') => bag q ≡ₚ (d, u) :: bag q' /\ (forall y, y ∈ bag q -> d <= y.1) /\ exists d', dis !! u = Some (Some d') /\
        (d <> d' -> inv P dis q') /\
        (d = d' -> u ∉ P /\ shortest g s u d /\ exists es, g !! u = Some es /\ inv2 P d u [] dis q' /\
           forall dis1 q1, inv2 P d u es dis1 q1 -> inv (u :: P) dis1 q1)
    end.
  Proof.
    intros H. pose proof (bag_pop q) as Hpop. destruct (mh_pop B q) as [[[d u]|] q']; [|exact Hpop].
    destruct Hpop as [Hperm Hmin]. split; [exact Hperm|].
    assert (Hmin' : forall y, y ∈ bag q -> d <= y.1) by (intros y Hy; apply Hmin in Hy; unfold pair_le in Hy; cbn [fst snd] in Hy; lia).
    split; [exact Hmin'|].
    assert (Hin : (d, u) ∈ bag q) by (rewrite Hperm; left).
    destruct (i_bag _ _ _ H _ _ Hin) as (d' & Hd' & Hle). exists d'. split; [exact Hd'|].
    assert (Hnd : (d, u) ∉ bag q' /\ NoDup (bag q')).
    { pose proof (i_nodup _ _ _ H) as Hn. rewrite Hperm in Hn. apply NoDup_cons in Hn. exact Hn. }
    assert (Hsub : forall x, x ∈ bag q' -> x ∈ bag q) by (intros x Hx; rewrite Hperm; right; exact Hx).
    assert (Hinq : forall x, x ∈ bag q -> x <> (d, u) -> x ∈ bag q').
    { intros x Hx Hne. rewrite Hperm in Hx. apply elem_of_cons in Hx as [?|?]; [contradiction|assumption]. }
    split.
    - (* stale entry *)
      intros Hne. destruct H as [I1 I2 I3 I4 I5 I6 I7 I8 I9]. split; try assumption.
      + intros x Hx. destruct (I4 x Hx) as (dx & Hdx & Hn). exists dx. split; [exact Hdx|]. intros Hq. apply Hn, Hsub, Hq.
      + intros v dv Hdv HvP. apply Hinq; [apply I6; assumption|]. intros [= -> ->]. rewrite Hd' in Hdv. injection Hdv as ->. lia.
      + intros dv v Hv. apply I7, Hsub, Hv.
      + intros x dx d1 v Hx Hdx Hv. eapply I8; [eassumption..|]. apply Hsub. exact Hv.
      + apply Hnd.
    - (* settle u *)
      intros <-.
      assert (HuP : u ∉ P).
      { intros HuP. destruct (i_done _ _ _ H u HuP) as (dx & Hdx & Hn). rewrite Hd' in Hdx. injection Hdx as <-. contradiction. }
      split; [exact HuP|]. split.
      { split; [apply (i_walk _ _ _ H); exact Hd'|]. intros w Hw. destruct (inv_walk _ _ _ H _ _ Hw) as [[HP _]|(dx & x & Hx & Hlex)]; [contradiction|].
        apply Hmin' in Hx. cbn [fst] in Hx. lia. }
      assert (Hul : (u < length g)%nat) by (rewrite <- (i_len _ _ _ H); apply lookup_lt_Some in Hd'; exact Hd').
      destruct (lookup_lt_is_Some_2 g u Hul) as [es Hes]. exists es. split; [exact Hes|]. split.
      + destruct H as [I1 I2 I3 I4 I5 I6 I7 I8 I9]. split; try assumption.
        * intros x [->|Hx]%elem_of_cons; [exists d; split; [exact Hd'|apply Hnd]|].
          destruct (I4 x Hx) as (dx & Hdx & Hn). exists dx. split; [exact Hdx|]. intros Hq. apply Hn, Hsub, Hq.
        * intros v c Hv. inversion Hv.
        * intros v dv Hdv HvP. apply Hinq; [apply I6; [exact Hdv|]|]; [intros Hx; apply HvP; right; exact Hx|].
          intros [= -> ->]. apply HvP. left.
        * intros dv v Hv. apply I7, Hsub, Hv.
        * intros x dx Hx Hdx. eapply I8; eassumption.
        * intros d1 v Hv. apply Hsub, Hmin' in Hv. exact Hv.
        * apply Hnd.
      + intros dis1 q1 [J1 J2 J3 J4 J5 J6 J7 J8 J9 J10 J11 J12]. split; try assumption.
        * intros x dx es1 v c [->|Hx]%elem_of_cons Hdx Hes1 Hc.
          -- rewrite Hes in Hes1. injection Hes1 as <-. rewrite J4 in Hdx. injection Hdx as <-. apply J7. exact Hc.
          -- eapply J6; eassumption.
        * intros x dx d1 v [->|Hx]%elem_of_cons Hdx Hv.
          -- rewrite J4 in Hdx. injection Hdx as <-. eapply J11. exact Hv.
          -- pose proof (J10 _ _ Hx Hdx). specialize (J11 _ _ Hv). lia.
  Qed.

  Lemma bag_start : bag (mh_push B (mh_new B) (0, s)) = [(0, s)].
  Proof. apply Permutation_singleton_r. rewrite bag_push. unfold bag, mh_new. rewrite (bc_new _ _ _ HB). reflexivity. Qed.

  Lemma inv_start : inv [] (<[s:=Some 0]> (replicate (length g) None)) (mh_push B (mh_new B) (0, s)).
  Proof.
    set (dis0 := <[s:=Some 0]> (replicate (length g) None)).
    assert (Hdis0 : forall v d, dis0 !! v = Some (Some d) <-> v = s /\ d = 0).
    { intros v d. unfold dis0. destruct (decide (v = s)) as [->|Hne].
      - rewrite list_lookup_insert by (rewrite replicate_length; exact Hs). split; [intros [= <-]; auto|intros [_ ->]; reflexivity].
      - rewrite list_lookup_insert_ne by congruence. split; [|tauto]. intros H. apply lookup_replicate in H as [H _]. discriminate. }
    split.
    + unfold dis0. rewrite insert_length, replicate_length. reflexivity.
    + intros v d Hd. apply Hdis0 in Hd as [-> ->]. apply walk_nil.
    + apply Hdis0. auto.
    + intros u Hu. inversion Hu.
    + intros u d es v c Hu. inversion Hu.
    + intros v d Hd _. apply Hdis0 in Hd as [-> ->]. rewrite bag_start. left.
    + intros d v Hin. rewrite bag_start in Hin. apply elem_of_list_singleton in Hin as [= -> ->]. exists 0. split; [apply Hdis0; auto|lia].
    + intros u d d' v Hu. inversion Hu.
    + rewrite bag_start. apply NoDup_singleton.
  Qed.

  Lemma dijkstra_ok : (dijkstra B g s = Panic /\ bad) \/ exists dis, dijkstra B g s = Ok dis /\ result dis /\ ~ bad.
  Proof.
    unfold dijkstra. rewrite vset_ok by (rewrite replicate_length; exact Hs). cbn [mbind res_bind].
    eapply (rloop_inv_p (fun m '(dis, q) => exists P, inv P dis q /\ m = (length (bag q) + open_deg g P)%nat)) with (m := (1 + open_deg g [])%nat).
    - intros m [dis q] (P & H & Hm). unfold dijkstra_step. pose proof (turn _ _ _ H) as Ht.
      destruct (mh_pop B q) as [[[d u]|] q'].
      2:{ right. exists (inr dis). split; [reflexivity|]. eapply inv_final; eassumption. }
      destruct Ht as (Hperm & _ & d' & Hd' & Hstale & Hsettle). rewrite (vget_ok _ _ _ Hd'). cbn [mbind res_bind].
      assert (Hlen : length (bag q) = S (length (bag q'))) by (rewrite Hperm; reflexivity).
      destruct (decide (Some d = Some d')) as [[= <-]|Hne].
      2:{ right. exists (inl (dis, q')). split; [reflexivity|]. exists (length (bag q') + open_deg g P)%nat. split; [lia|]. exists P. split; [|reflexivity].
        apply Hstale. congruence. }
      destruct (Hsettle eq_refl) as (HuP & Hshort & es & Hes & J0 & Hnext). rewrite (vget_ok _ _ _ Hes). cbn [mbind res_bind].
      destruct (rfor_inv_p (fun done '(dis1, q1) => inv2 P d u done dis1 q1 /\ (length (bag q1) <= length (bag q') + length done)%nat)
        bad es (relax B d) (dis, q')) as [[E1 Hbad]|([dis1 q1] & E1 & J & Hlen1)].
      { split; [exact J0|cbn; lia]. }
      { intros done [v c] rest [dis1 q1] Hsplit [J Hl]. assert (Hc : (v, c) ∈ es) by (rewrite Hsplit; apply elem_of_app; right; left).
        destruct (decide ((length g <= v)%nat \/ 2 ^ 64 - 1 < d + c)) as [Hb|Hb].
        { left. split; [eapply relax_panic; eassumption|]. exists u, d, es, v, c. auto. }
        right. destruct (relax_ok P d u es done v c dis1 q1 J Hes Hc) as (dis2 & q2 & E2 & J2 & Hl2); [lia..|].
        exists (dis2, q2). split; [exact E2|]. split; [exact J2|]. rewrite app_length. cbn [length]. lia. }
      { left. rewrite E1. auto. }
      right. rewrite E1. cbn [mbind res_bind]. exists (inl (dis1, q1)). split; [reflexivity|].
      pose proof (open_deg_cons g P u es Hes HuP) as Hdeg.
      exists (length (bag q1) + open_deg g (u :: P))%nat. split; [lia|]. exists (u :: P). split; [apply Hnext, J|reflexivity].
    - exists []. split; [apply inv_start|rewrite bag_start; reflexivity].
    - rewrite open_deg_nil. lia.
  Qed.
End Proof.
Close Scope Z_scope.
