(** The comparisons listed by PrefixLogModel.v are those counted by PrefixCountModel.v, and they determine the answer. *)
From Verif Require Import Prelude PrefixModel PrefixCountModel PrefixLogModel PrefixRelProof.

Section Log.
  Context {T : Type} (eqb : T -> T -> bool).

  Lemma kmp_length s : kmp_count eqb s = fmap (fun x => (x.1, length x.2)) (kmp_log eqb s).
  Proof.
    unfold kmp_count, kmp_log.
    apply (rfor_erase (fun x : list nat * list (nat * nat) => (x.1, length x.2)) _ _) with (s := (replicate (length s) 0, [])). intros i [pi c]. cbn [fst snd].
    unfold kmp_body_count, kmp_body_log. destruct (vget pi (i - 1)) as [j| |]; cbn [mbind res_bind]; try reflexivity.
    rewrite (rloop_erase (fun x : nat * list (nat * nat) => (x.1, length x.2)) (fun x => (x.1, length x.2)) (kmp_back_log eqb s pi i) (kmp_back_count eqb s pi i)) with (s := (j, c)).
    - destruct (rloop _ _ (j, c)) as [[j' c']| |]; cbn; try reflexivity.
      destruct (vget s i) as [a| |]; cbn; try reflexivity. destruct (vget s j') as [b| |]; cbn; try reflexivity.
      destruct (vset pi i _); cbn; try reflexivity. rewrite Nat.add_1_r. reflexivity.
    - intros [j' c']. unfold kmp_back_log, kmp_back_count. cbn [fst snd]. destruct (j' =? 0); [reflexivity|].
      destruct (vget s i) as [a| |]; cbn; try reflexivity. destruct (vget s j') as [b| |]; cbn; try reflexivity.
      rewrite Nat.add_1_r. destruct (negb (eqb a b)); [|reflexivity]. destruct (vget pi (j' - 1)); reflexivity.
  Qed.

  Lemma z_length s : z_function_count eqb s = fmap (fun x => (x.1, length x.2)) (z_function_log eqb s).
  Proof.
    unfold z_function_count, z_function_log.
    rewrite (rfor_erase (fun st : list nat * nat * nat * list (nat * nat) => let '(z, l, r, c) := st in (z, l, r, length c)) (z_body_log eqb s) (z_body_count eqb s)) with (s := (replicate (length s) 0, 0, 0, [])).
    - destruct (rfor _ _ _) as [[[[z l] r] c]| |]; reflexivity.
    - intros i [[[z l] r] c]. unfold z_body_log, z_body_count.
      destruct (if i <=? r then _ else _) as [z1| |]; cbn [mbind res_bind]; try reflexivity.
      rewrite (rloop_erase (fun x : list nat * list (nat * nat) => (x.1, length x.2)) (fun x => (x.1, length x.2)) (z_extend_log eqb s i) (z_extend_count eqb s i)) with (s := (z1, c)).
      + destruct (rloop _ _ (z1, c)) as [[z2 c']| |]; cbn; try reflexivity. destruct (vget z2 i) as [zi| |]; cbn; try reflexivity.
        destruct (r <? i + zi - 1); reflexivity.
      + intros [z' c']. unfold z_extend_log, z_extend_count. cbn [fst snd]. destruct (vget z' i) as [zi| |]; cbn; try reflexivity.
        destruct (i + zi <? length s); [|reflexivity].
        destruct (vget s zi) as [a| |]; cbn; try reflexivity. destruct (vget s (i + zi)) as [b| |]; cbn; try reflexivity.
        rewrite Nat.add_1_r. destruct (eqb a b); [|reflexivity]. destruct (vset z' i (zi + 1)); reflexivity.
  Qed.
End Log.

(** Another equality that answers alike wherever the first was asked leads to the same run. *)
Section Det.
  Context {T : Type} (eqb eqb' : T -> T -> bool) (s : list T).
  Definition alike (l : list (nat * nat)) : Prop :=
    forall i j a b, (i, j) ∈ l -> s !! i = Some a -> s !! j = Some b -> eqb' a b = eqb a b.
  Lemma alike_tl x l : alike (x :: l) -> alike l.
  Proof. intros H i j a b Hin. apply H. right. exact Hin. Qed.

  (** x (run with eqb) extends the list l; y (run with eqb') is the same if the equalities are alike on the final list. *)
  Definition tracks {A} (lg : A -> list (nat * nat)) (l : list (nat * nat)) (x y : res A) : Prop :=
    forall a, x = Ok a -> (alike (lg a) -> alike l) /\ (alike (lg a) -> y = Ok a).

  Lemma tracks_loop {S R} (ls : S -> list (nat * nat)) (lr : R -> list (nat * nat)) (f f' : S -> res (S + R)) :
    (forall st, tracks (fun o => match o with inl a => ls a | inr b => lr b end) (ls st) (f st) (f' st)) ->
    forall fuel st, tracks lr (ls st) (rloop fuel f st) (rloop fuel f' st).
  Proof.
    intros H fuel. induction fuel as [|fuel IH]; intros st a E; [discriminate|]. cbn [rloop] in *.
    apply rbind_ok_inv in E as (o & Eo & E). destruct (H st o Eo) as [H1 H2]. destruct o as [st'|r].
    - destruct (IH st' a E) as [H3 H4]. split; [auto|]. intros Ha. rewrite (H2 (H3 Ha)). cbn. apply H4. exact Ha.
    - injection E as <-. split; [exact H1|]. intros Ha. rewrite (H2 Ha). reflexivity.
  Qed.
  Lemma tracks_for {A S} (ls : S -> list (nat * nat)) (f f' : A -> S -> res S) :
    (forall x st, tracks ls (ls st) (f x st) (f' x st)) -> forall xs st, tracks ls (ls st) (rfor xs f st) (rfor xs f' st).
  Proof.
    intros H xs. induction xs as [|x xs IH]; intros st a E; cbn [rfor] in *; [injection E as <-; auto|].
    apply rbind_ok_inv in E as (st' & E' & E). destruct (H x st st' E') as [H1 H2]. destruct (IH st' a E) as [H3 H4].
    split; [auto|]. intros Ha. rewrite (H2 (H3 Ha)). cbn. apply H4. exact Ha.
  Qed.

  Lemma kmp_back_tracks pi i st : tracks (fun o => match o with inl a => a.2 | inr b => b.2 end) st.2
    (kmp_back_log eqb s pi i st) (kmp_back_log eqb' s pi i st).
  Proof.
    destruct st as [j c]. intros o E. unfold kmp_back_log in *. cbn [snd]. destruct (j =? 0); [injection E as <-; auto|].
    apply rbind_ok_inv in E as (a & Ea & E). apply rbind_ok_inv in E as (b & Eb & E). rewrite Ea. cbn [mbind res_bind]. rewrite Eb. cbn [mbind res_bind].
    assert (match o with inl a => a.2 | inr b => b.2 end = (i, j) :: c) as ->.
    { destruct (negb (eqb a b)); [apply rbind_ok_inv in E as (j' & _ & E)|]; injection E as <-; reflexivity. }
    split; [apply alike_tl|]. intros H. rewrite (H i j a b) by (first [left | apply vget_ok_iff; assumption]). exact E.
  Qed.
  Lemma kmp_body_tracks i st : tracks snd st.2 (kmp_body_log eqb s i st) (kmp_body_log eqb' s i st).
  Proof.
    destruct st as [pi c]. intros o E. unfold kmp_body_log in *. cbn [snd].
    apply rbind_ok_inv in E as (j & Ej & E). rewrite Ej. cbn [mbind res_bind]. apply rbind_ok_inv in E as ([j' c'] & El & E).
    destruct (tracks_loop snd snd _ _ (kmp_back_tracks pi i) _ _ _ El) as [H1 H2]. cbn [snd] in *.
    apply rbind_ok_inv in E as (a & Ea & E). apply rbind_ok_inv in E as (b & Eb & E). apply rbind_ok_inv in E as (pi' & Ep & E). injection E as <-. cbn [snd].
    split; [intros H; apply H1; apply alike_tl in H; exact H|]. intros H. rewrite H2 by (apply alike_tl in H; exact H). cbn [mbind res_bind].
    rewrite Ea. cbn [mbind res_bind]. rewrite Eb. cbn [mbind res_bind]. rewrite (H i j' a b) by (first [left | apply vget_ok_iff; assumption]). rewrite Ep. reflexivity.
  Qed.
  Lemma kmp_tracks : tracks snd [] (kmp_log eqb s) (kmp_log eqb' s).
  Proof. unfold kmp_log. apply (tracks_for snd _ _ kmp_body_tracks) with (st := (replicate (length s) 0, [])). Qed.

  Lemma z_extend_tracks i st : tracks (fun o => match o with inl a => a.2 | inr b => b.2 end) st.2
    (z_extend_log eqb s i st) (z_extend_log eqb' s i st).
  Proof.
    destruct st as [z c]. intros o E. unfold z_extend_log in *. cbn [snd]. apply rbind_ok_inv in E as (zi & Ez & E). rewrite Ez. cbn [mbind res_bind].
    destruct (i + zi <? length s); [|injection E as <-; auto].
    apply rbind_ok_inv in E as (a & Ea & E). apply rbind_ok_inv in E as (b & Eb & E). rewrite Ea. cbn [mbind res_bind]. rewrite Eb. cbn [mbind res_bind].
    assert (match o with inl a => a.2 | inr b => b.2 end = (zi, i + zi) :: c) as ->.
    { destruct (eqb a b); [apply rbind_ok_inv in E as (j' & _ & E)|]; injection E as <-; reflexivity. }
    split; [apply alike_tl|]. intros H. rewrite (H zi (i + zi) a b) by (first [left | apply vget_ok_iff; assumption]). exact E.
  Qed.
  Lemma z_body_tracks i st : tracks snd st.2 (z_body_log eqb s i st) (z_body_log eqb' s i st).
  Proof.
    destruct st as [[[z l] r] c]. intros o E. unfold z_body_log in *. cbn [snd].
    apply rbind_ok_inv in E as (z1 & E1 & E). rewrite E1. cbn [mbind res_bind]. apply rbind_ok_inv in E as ([z2 c'] & El & E).
    destruct (tracks_loop snd snd _ _ (z_extend_tracks i) _ _ _ El) as [H1 H2]. cbn [snd] in *.
    assert (o.2 = c') as ->.
    { apply rbind_ok_inv in E as (zi & _ & E). destruct (r <? i + zi - 1); injection E as <-; reflexivity. }
    split; [exact H1|]. intros H. rewrite (H2 H). cbn [mbind res_bind]. exact E.
  Qed.
  Lemma z_tracks : tracks snd [] (z_function_log eqb s) (z_function_log eqb' s).
  Proof.
    intros o E. unfold z_function_log in *. apply rbind_ok_inv in E as ([[[z l] r] c] & Ef & E). injection E as <-. cbn [snd].
    destruct (tracks_for snd _ _ z_body_tracks _ _ _ Ef) as [H1 H2]. cbn [snd] in *. split; [exact H1|]. intros H. rewrite (H2 H). reflexivity.
  Qed.
End Det.
