(** The input reader: proofs and main theorems (C51). *)
From Verif Require Import Prelude IntModel ArraySpec InputSpec InputModel.
Open Scope Z_scope.

Lemma is_ws_spec c : is_ws c = true <-> c ∈ white.
Proof.
  split.
  - unfold is_ws. rewrite !orb_true_iff, !andb_true_iff, !Z.eqb_eq, !Z.leb_le. intros H.
    assert (exists d, d ∈ white /\ c = d) as (d & Hd & ->); [|exact Hd].
    assert (c = 32 \/ c = 9 \/ c = 10 \/ c = 11 \/ c = 12 \/ c = 13 \/ c = 133 \/ c = 160 \/ c = 5760 \/ c = 8192 \/ c = 8193 \/ c = 8194 \/ c = 8195 \/ c = 8196 \/ c = 8197 \/
      c = 8198 \/ c = 8199 \/ c = 8200 \/ c = 8201 \/ c = 8202 \/ c = 8232 \/ c = 8233 \/ c = 8239 \/ c = 8287 \/ c = 12288) as H' by lia. clear H.
    repeat destruct H' as [->|H']; try subst c; (eexists; split; [|reflexivity]; apply (bool_decide_unpack _); vm_compute; exact I).
  - intros H. unfold white in H. repeat (apply elem_of_cons in H as [->|H]; [reflexivity|]). apply elem_of_nil in H. contradiction.
Qed.
Lemma is_ws_false c : is_ws c = false <-> c ∉ white.
Proof. rewrite <- is_ws_spec. destruct (is_ws c); split; congruence. Qed.

Lemma span_unique (P : Z -> Prop) a b a' b' : Forall P a -> Forall P a' ->
  (b = [] \/ exists c r, b = c :: r /\ ~ P c) -> (b' = [] \/ exists c r, b' = c :: r /\ ~ P c) -> a ++ b = a' ++ b' -> a = a' /\ b = b'.
Proof.
  revert a'. induction a as [|x a IH]; intros a' Ha Ha' Hb Hb' E; destruct a' as [|x' a']; cbn in E; [auto| | |].
  - exfalso. subst b. apply Forall_cons in Ha' as [Hx _]. destruct Hb as [Hb|(c & r & Hb & Hc)]; [discriminate|]. injection Hb as <- _. contradiction.
  - exfalso. subst b'. apply Forall_cons in Ha as [Hx _]. destruct Hb' as [Hb'|(c & r & Hb' & Hc)]; [discriminate|]. injection Hb' as <- _. contradiction.
  - injection E as <- E. apply Forall_cons in Ha as [_ Ha], Ha' as [_ Ha']. destruct (IH a' Ha Ha' Hb Hb' E) as [-> ->]. auto.
Qed.
Lemma words_unique s l : words s l -> forall l', words s l' -> l = l'.
Proof.
  assert (forall w s : list Z, w <> [] -> Forall (fun c => c ∉ white) w -> exists c r, w ++ s = c :: r /\ ~ c ∈ white) as Hw.
  { intros w s' Hne Hw. destruct w as [|c w]; [contradiction|]. apply Forall_cons in Hw as [Hc _]. exists c, (w ++ s'). auto. }
  induction 1 as [ws Hws|ws w s l Hws Hne Hnw Hs _ IH]; intros l' H'.
  - inversion H' as [ws' Hws' E|ws' w' s' l'' Hws' Hne' Hnw' Hs' H'' E]; [reflexivity|]. exfalso. destruct w' as [|c w']; [contradiction|].
    rewrite <- E in Hws. apply Forall_app in Hws as [_ Hws]. cbn in Hws. apply Forall_cons in Hws as [Hc _]. apply Forall_cons in Hnw' as [Hc' _]. contradiction.
  - inversion H' as [ws' Hws' E|ws' w' s' l'' Hws' Hne' Hnw' Hs' H'' E]; subst l'.
    + exfalso. subst ws'. destruct w as [|c w]; [contradiction|]. apply Forall_app in Hws' as [_ Hws']. cbn in Hws'. apply Forall_cons in Hws' as [Hc _]. apply Forall_cons in Hnw as [Hc' _]. contradiction.
    + destruct (span_unique (fun c => c ∈ white) ws' (w' ++ s') ws (w ++ s)) as [-> E2]; auto.
      destruct (span_unique (fun c => c ∉ white) w' s' w s) as [-> ->]; auto.
      * destruct Hs' as [->|(c & r & -> & Hc)]; [auto|]. right. exists c, r. auto.
      * destruct Hs as [->|(c & r & -> & Hc)]; [auto|]. right. exists c, r. auto.
      * f_equal. apply IH. exact H''.
Qed.
Lemma words_space c s l : c ∈ white -> words s l -> words (c :: s) l.
Proof.
  intros Hc H. inversion H as [ws Hws E|ws w s' l' Hws Hne Hnw Hs H' E]; subst.
  - apply words_end. constructor; auto.
  - apply (words_cons (c :: ws)); auto.
Qed.

(** What a reader still holds. *)
Definition holds (st : reader) (l : list (list Z)) : Prop := match st with None => l = [] | Some s => words s l end.
Definition rsize (st : reader) : nat := match st with Some s => S (length s) | None => 0%nat end.
Lemma holds_unique st l l' : holds st l -> holds st l' -> l = l'.
Proof. destruct st; cbn; [intros H H'; eapply words_unique; eauto|congruence]. Qed.

Lemma cut_spec s : forall w r, cut s = (w, r) -> Forall (fun c => c ∉ white) w /\
  match r with None => s = w | Some s' => exists c, c ∈ white /\ s = w ++ c :: s' end.
Proof.
  induction s as [|c s IH]; intros w r E; cbn in E.
  - injection E as <- <-. auto.
  - destruct (is_ws c) eqn:Ec.
    + injection E as <- <-. apply is_ws_spec in Ec. split; [constructor|]. exists c. auto.
    + destruct (cut s) as [w' r']. injection E as <- <-. destruct (IH _ _ eq_refl) as [H1 H2]. apply is_ws_false in Ec. split; [constructor; auto|].
      destruct r' as [s'|]; [|subst; reflexivity]. destruct H2 as (d & Hd & ->). exists d. auto.
Qed.
Lemma cut_size s w r : cut s = (w, r) -> (rsize r < rsize (Some s))%nat.
Proof.
  intros E. destruct (cut_spec s w r E) as [_ H]. destruct r as [s'|]; cbn in *; [|lia]. destruct H as (c & _ & ->). rewrite app_length. cbn. lia.
Qed.
Lemma cut_words s w r l : cut s = (w, r) -> holds r l -> words s (match w with [] => l | _ :: _ => w :: l end).
Proof.
  intros E H. destruct (cut_spec s w r E) as [Hw H2]. destruct w as [|c w].
  - destruct r as [s'|]; cbn in H.
    + destruct H2 as (d & Hd & ->). cbn. apply words_space; auto.
    + subst. apply words_end. constructor.
  - destruct r as [s'|]; cbn in H.
    + destruct H2 as (d & Hd & ->). apply (words_cons [] (c :: w) (d :: s') l); [constructor|discriminate|exact Hw|right; eauto|]. apply words_space; auto.
    + subst. pose proof (words_cons [] (c :: w) [] []) as HH. rewrite app_nil_r in HH. apply HH; [constructor|discriminate|exact Hw|auto|]. apply words_end. constructor.
Qed.
Lemma holds_ex st : exists l, holds st l.
Proof.
  assert (forall k st, (rsize st <= k)%nat -> exists l, holds st l) as H.
  { induction k as [|k IH]; intros [s|] Hk; cbn in Hk; try lia; [exists []; reflexivity| |exists []; reflexivity].
    destruct (cut s) as [w r] eqn:E. pose proof (cut_size s w r E) as Hc. cbn in Hc. destruct (IH r) as [l Hl]; [lia|]. eexists. cbn. eapply cut_words; eauto. }
  exact (H (rsize st) st (Nat.le_refl _)).
Qed.

Lemma next_ok st l : holds st l -> exists st', in_next st = Ok (head l, st') /\ holds st' (tail l).
Proof.
  unfold in_next. intros H. assert (forall fuel st l, (rsize st < fuel)%nat -> holds st l -> exists st', rloop fuel next_step st = Ok (head l, st') /\ holds st' (tail l)) as Hmain.
  { clear. induction fuel as [|fuel IH]; intros st l Hf H; [lia|]. cbn [rloop]. destruct st as [s|]; cbn [next_step].
    - destruct (cut s) as [w r] eqn:E. pose proof (cut_size s w r E) as Hc. destruct (holds_ex r) as [l' Hl'].
      pose proof (words_unique _ _ H _ (cut_words s w r l' E Hl')) as ->. destruct w as [|c w]; cbn [mbind res_bind head tail].
      + apply IH; [lia|exact Hl'].
      + exists r. auto.
    - cbn in H. subst l. cbn. exists None. split; reflexivity. }
  apply Hmain; [|exact H]. destruct st; cbn; lia.
Qed.

Section V.
  Context {V : Type}.
  Implicit Types (parse : list Z -> option V).
  Lemma read_ok parse st l : holds st l ->
    match l with
    | [] => in_read parse st = Panic
    | w :: l' => match parse w with Some v => exists st', in_read parse st = Ok (v, st') /\ holds st' l' | None => in_read parse st = Panic end
    end.
  Proof.
    intros H. destruct (next_ok st l H) as (st' & E & H'). unfold in_read. rewrite E. cbn [mbind res_bind]. destruct l as [|w l]; cbn [head tail] in *; cbn [runwrap mbind res_bind]; [reflexivity|].
    destruct (parse w) as [v|]; cbn [runwrap mbind res_bind]; [eauto|reflexivity].
  Qed.
  Lemma vec_ok parse n : forall a acc st l, holds st l ->
    let r := rfor (seq a n) (fun _ acc => '(v, st) ← in_read parse acc.2; Ok (acc.1 ++ [v], st)) (acc, st) in
    if (n <=? length l)%nat then match mapM parse (take n l) with Some vs => exists st', r = Ok (acc ++ vs, st') /\ holds st' (drop n l) | None => r = Panic end else r = Panic.
  Proof.
    induction n as [|n IH]; intros a acc st l H; cbn [seq rfor].
    - cbn. exists st. rewrite app_nil_r. auto.
    - cbv zeta. cbn [snd fst]. pose proof (read_ok parse st l H) as R. destruct l as [|w l].
      + rewrite R. reflexivity.
      + cbn [length take drop mapM]. destruct (parse w) as [v|] eqn:Ep.
        * destruct R as (st' & -> & H'). cbn [mbind res_bind]. specialize (IH (S a) (acc ++ [v]) st' l H'). cbv zeta in IH. change (S n <=? S (length l))%nat with (n <=? length l)%nat.
          destruct (n <=? length l)%nat; [|exact IH]. destruct (mapM parse (take n l)) as [vs|]; cbn [option_bind mbind mret option_ret]; [|exact IH]. destruct IH as (st2 & -> & H2). exists st2. rewrite <- app_assoc. auto.
        * rewrite R. cbn [mbind option_bind]. destruct (S n <=? _)%nat; reflexivity.
  Qed.
  Lemma step_ok st l (o : in_op V) : holds st l ->
    match in_spec_step utf8 l o with
    | Ok (l', out) => exists st', in_step st o = Ok (st', out) /\ holds st' l'
    | Panic => in_step st o = Panic
    | Diverge => False
    end.
  Proof.
    intros H. destruct o as [parse|parse| | |parse n]; cbn [in_spec_step in_step].
    - pose proof (read_ok parse st l H) as R. destruct l as [|w l]; [rewrite R; reflexivity|]. destruct (parse w); [|rewrite R; reflexivity]. destruct R as (st' & -> & H'). cbn. eauto.
    - destruct (next_ok st l H) as (st' & E & H'). unfold in_checked_read. rewrite E. cbn [mbind res_bind]. destruct l as [|w l]; cbn [head tail] in *; cbn [mbind res_bind]; [eauto|].
      destruct (parse w); cbn; eauto.
    - destruct (next_ok st l H) as (st' & E & H'). unfold in_bytes. rewrite E. cbn [mbind res_bind]. destruct l as [|w l]; cbn [head tail] in *; cbn; eauto.
    - destruct (next_ok st l H) as (st' & E & H'). unfold in_chars. rewrite E. cbn [mbind res_bind]. destruct l as [|w l]; cbn [head tail] in *; cbn; eauto.
    - pose proof (vec_ok parse n 0 [] st l H) as R. cbv zeta in R. unfold in_vec, range. rewrite Nat.sub_0_r. destruct (n <=? length l)%nat; [|rewrite R; reflexivity].
      destruct (mapM parse (take n l)) as [vs|]; [|rewrite R; reflexivity]. destruct R as (st' & -> & H'). cbn. eauto.
  Qed.
  Lemma run_ok (ops : list (in_op V)) : forall st l, holds st l ->
    fmap snd (run in_step st ops) = fmap snd (run (in_spec_step utf8) l ops).
  Proof.
    induction ops as [|o ops IH]; intros st l H; [reflexivity|]. cbn [run]. pose proof (step_ok st l o H) as R. destruct (in_spec_step utf8 l o) as [[l' out]| |]; [|rewrite R; reflexivity|contradiction].
    destruct R as (st' & -> & H'). cbn [mbind res_bind]. specialize (IH st' l' H'). destruct (run in_step st' ops) as [[s1 o1]| |], (run (in_spec_step utf8) l' ops) as [[s2 o2]| |]; cbn in IH |- *; congruence.
  Qed.
End V.

(** C51: every text has exactly one list of words, and every sequence of calls gives what reading from this list gives
    (including which call panics). *)
Theorem C51_reads : forall s, exists l, words s l /\ (forall l', words s l' -> l' = l) /\
  forall V (ops : list (in_op V)), fmap snd (run in_step (in_new s) ops) = fmap snd (run (in_spec_step utf8) l ops).
Proof.
  intros s. destruct (holds_ex (in_new s)) as [l Hl]. exists l. split; [exact Hl|]. split; [intros l' H; eapply words_unique; eauto|]. intros V ops. apply run_ok. exact Hl.
Qed.
Print Assumptions C51_reads.

(** *** Parsing *)
Lemma digits_ok T (p : bool) ds : forall a, in_ty T a -> (if p then 0 <= a else a <= 0) ->
  let val := foldl (fun a c => if p then 10 * a + (c - 48) else 10 * a - (c - 48)) a ds in
  forall v, foldl (parse_digit T p) (Some a) ds = Some v <-> Forall (fun c => 48 <= c <= 57) ds /\ in_ty T val /\ v = val.
Proof.
  assert (forall l, foldl (parse_digit T p) None l = None) as Hnone by (induction l as [|c l IH]; [reflexivity|exact IH]).
  assert (forall l a, (if p then 0 <= a else a <= 0) -> Forall (fun c => 48 <= c <= 57) l ->
    let val := foldl (fun a c => if p then 10 * a + (c - 48) else 10 * a - (c - 48)) a l in if p then a <= val else val <= a) as Hmono.
  { induction l as [|c l IH]; intros a Ha Hd; cbn [foldl]; [destruct p; cbn; lia|]. apply Forall_cons in Hd as [Hc Hd].
    pose proof (IH (if p then 10 * a + (c - 48) else 10 * a - (c - 48))) as H. cbv zeta in *. destruct p; specialize (H ltac:(lia) Hd); lia. }
  induction ds as [|c ds IH]; intros a Hin Ha val v; subst val; cbn [foldl].
  - split; [intros [= <-]|intros (_ & _ & ->)]; auto.
  - cbn [parse_digit]. destruct ((48 <=? c) && (c <=? 57)) eqn:Ec.
    2:{ rewrite Hnone. split; [discriminate|]. intros (H & _). apply Forall_cons in H as [H _]. apply andb_false_iff in Ec as [E|E]; apply Z.leb_gt in E; lia. }
    apply andb_true_iff in Ec as [E1 E2]. apply Z.leb_le in E1, E2.
    assert (forall x, (if p then a <= x <= 10 * a + (c - 48) else 10 * a - (c - 48) <= x <= a) -> ~ in_ty T x ->
      ~ (Forall (fun c => 48 <= c <= 57) (c :: ds) /\ in_ty T (foldl (fun a c => if p then 10 * a + (c - 48) else 10 * a - (c - 48)) (if p then 10 * a + (c - 48) else 10 * a - (c - 48)) ds))) as Hout.
    { intros x Hx Hn (Hd & Hv). apply Forall_cons in Hd as [_ Hd]. apply Hn. clear Hn. pose proof (Hmono ds (if p then 10 * a + (c - 48) else 10 * a - (c - 48))) as H. cbv zeta in H. unfold in_ty in *. destruct p; specialize (H ltac:(lia) Hd); lia. }
    destruct (chk_cases T (a * 10)) as [[H1 ->]|[H1 ->]].
    + replace (if p then a * 10 + (c - 48) else a * 10 - (c - 48)) with (if p then 10 * a + (c - 48) else 10 * a - (c - 48)) by (destruct p; lia).
      destruct (chk_cases T (if p then 10 * a + (c - 48) else 10 * a - (c - 48))) as [[H2 ->]|[H2 ->]].
      * rewrite IH; [|exact H2|destruct p; lia]. rewrite Forall_cons. split; intros (A & B & C); [auto|]. destruct A. auto.
      * rewrite Hnone. split; [discriminate|]. intros (A & B & _). exfalso. eapply Hout; [|exact H2|split; [exact A|exact B]]. destruct p; lia.
    + rewrite Hnone. split; [discriminate|]. intros (A & B & _). exfalso. eapply Hout; [|exact H1|split; [exact A|exact B]]. destruct p; lia.
Qed.
Lemma decimal_neg ds : foldl (fun a c => 10 * a - (c - 48)) 0 ds = - decimal ds.
Proof.
  unfold decimal. assert (forall a, foldl (fun a c => 10 * a - (c - 48)) (- a) ds = - foldl (fun a c => 10 * a + (c - 48)) a ds) as H; [|exact (H 0)].
  induction ds as [|c ds IH]; intros a; [reflexivity|]. cbn [foldl]. rewrite <- IH. f_equal. lia.
Qed.

(** C51: i32(), i64(), usize() and read::<integer>() accept exactly the decimal numerals in the range of the type. *)
Theorem C51_parse : forall T w v, T ∈ prim_types -> parse_int T w = Some v <-> numeral T w v.
Proof.
  intros T w v HT. assert (in_ty T 0) as H0.
  { unfold prim_types in HT. repeat (apply elem_of_cons in HT as [->|HT]; [split; vm_compute; discriminate|]). apply elem_of_nil in HT. contradiction. }
  assert (forall ds v, foldl (parse_digit T true) (Some 0) ds = Some v <-> Forall (fun c => 48 <= c <= 57) ds /\ in_ty T (decimal ds) /\ v = decimal ds) as Hpos.
  { intros ds v'. exact (digits_ok T true ds 0 H0 (Z.le_refl 0) v'). }
  assert (forall ds v, foldl (parse_digit T false) (Some 0) ds = Some v <-> Forall (fun c => 48 <= c <= 57) ds /\ in_ty T (- decimal ds) /\ v = - decimal ds) as Hneg.
  { intros ds v'. rewrite <- decimal_neg. exact (digits_ok T false ds 0 H0 (Z.le_refl 0) v'). }
  unfold numeral. destruct w as [|c ds]; cbn [parse_int].
  { split; [discriminate|]. intros (sign & ds & E & Hne & _). symmetry in E. apply app_eq_nil in E as [_ E]. contradiction. }
  destruct (((c =? 43) || (c =? 45)) && match ds with [] => true | _ :: _ => false end) eqn:E1.
  { split; [discriminate|]. intros (sign & ds' & E & Hne & Hd & _ & Hs). exfalso. destruct ds as [|? ?]; [|rewrite andb_false_r in E1; discriminate]. rewrite andb_true_r in E1.
    destruct sign as [|x sign]; cbn in E.
    - subst ds'. apply Forall_cons in Hd as [Hd _]. apply orb_true_iff in E1 as [E1|E1]; apply Z.eqb_eq in E1; lia.
    - injection E as <- E. symmetry in E. apply app_eq_nil in E as [_ E]. contradiction. }
  assert (forall sign ds', c :: ds = sign ++ ds' -> ds' <> [] -> Forall (fun c => 48 <= c <= 57) ds' ->
     (sign = [] -> 48 <= c <= 57 /\ ds' = c :: ds) /\ (forall x, sign = [x] -> c = x /\ ds' = ds)) as Hsplit.
  { intros sign ds' E _ Hd. split; [intros ->; cbn in E; subst ds'; apply Forall_cons in Hd as [Hd _]; auto|]. intros x ->. cbn in E. injection E as -> ->. auto. }
  destruct (Z.eqb_spec c 43) as [->|Hc43].
  - assert (ds <> []) as Hne by (intros ->; discriminate). rewrite Hpos. split.
    + intros (A & B & ->). exists [43], ds. split; [reflexivity|]. auto 10.
    + intros (sign & ds' & E & Hne' & Hd & Hin & Hs). destruct (Hsplit sign ds' E Hne' Hd) as [S1 S2]. destruct Hs as [[[Hs|Hs] ->]|(Hs & _)].
      * destruct (S1 Hs). lia.
      * destruct (S2 _ Hs) as [_ ->]. auto.
      * destruct (S2 _ Hs). lia.
  - destruct ((c =? 45) && it_signed T) eqn:E2.
    + apply andb_true_iff in E2 as [E2 E3]. apply Z.eqb_eq in E2 as ->. assert (ds <> []) as Hne by (intros ->; discriminate). rewrite Hneg. split.
      * intros (A & B & ->). exists [45], ds. split; [reflexivity|]. auto 10.
      * intros (sign & ds' & E & Hne' & Hd & Hin & Hs). destruct (Hsplit sign ds' E Hne' Hd) as [S1 S2]. destruct Hs as [[[Hs|Hs] ->]|(Hs & _ & ->)].
        -- destruct (S1 Hs). lia.
        -- destruct (S2 _ Hs). lia.
        -- destruct (S2 _ Hs) as [_ ->]. auto.
    + rewrite Hpos. split.
      * intros (A & B & ->). exists [], (c :: ds). split; [reflexivity|]. split; [discriminate|]. auto 10.
      * intros (sign & ds' & E & Hne' & Hd & Hin & Hs). destruct (Hsplit sign ds' E Hne' Hd) as [S1 S2]. destruct Hs as [[[Hs|Hs] ->]|(Hs & Hsg & ->)].
        -- destruct (S1 Hs) as [_ ->]. auto.
        -- destruct (S2 _ Hs). contradiction.
        -- destruct (S2 _ Hs) as [-> _]. rewrite Hsg in E2. discriminate.
Qed.
Print Assumptions C51_parse.

(** i32(), i64() and usize() in any sequence: they return the values of the next words when each is a numeral in the range
    of the method's type, and panic when one is not or when the words run out. *)
Theorem C51_typed : forall ks s l, words s l ->
  (forall vs, Forall3 (fun k w v => numeral (kty k) w v) ks (take (length ks) l) vs -> in_ints ks (in_new s) = Ok vs) /\
  ((~ exists vs, Forall3 (fun k w v => numeral (kty k) w v) ks (take (length ks) l) vs) -> in_ints ks (in_new s) = Panic).
Proof.
  intros ks s l Hs. change (holds (in_new s) l) in Hs. revert Hs. generalize (in_new s). clear s. revert l.
  induction ks as [|k ks IH]; intros l st H.
  - split; [intros vs F; inversion F; reflexivity|]. intros Hn. exfalso. apply Hn. exists []. constructor.
  - assert (HT : kty k ∈ prim_types) by (destruct k; unfold prim_types; repeat constructor).
    assert (Ek : in_int k = in_read (parse_int (kty k))) by (destruct k; reflexivity).
    cbn [in_ints length]. rewrite Ek. pose proof (read_ok (parse_int (kty k)) st l H) as R. destruct l as [|w l].
    { rewrite R. split; [intros vs F; inversion F|reflexivity]. }
    cbn [take]. destruct (parse_int (kty k) w) as [v|] eqn:Ep.
    + destruct R as (st' & -> & H'). cbn [mbind res_bind]. apply C51_parse in Ep; [|exact HT]. destruct (IH l st' H') as [I1 I2]. split.
      * intros vs F. apply Forall3_cons_inv_l in F as (w' & l' & v' & vs' & El & -> & Hv & F'). injection El as <- <-. rewrite (I1 vs' F'). cbn [mbind res_bind].
        apply C51_parse in Ep; [|exact HT]. apply C51_parse in Hv; [|exact HT]. congruence.
      * intros Hn. rewrite I2; [reflexivity|]. intros (vs & F). apply Hn. exists (v :: vs). constructor; assumption.
    + rewrite R. split; [|reflexivity]. intros vs F. apply Forall3_cons_inv_l in F as (w' & l' & v' & vs' & El & -> & Hv & F'). injection El as <- <-. apply C51_parse in Hv; [|exact HT]. congruence.
Qed.
Print Assumptions C51_typed.

(** bytes() gives the UTF-8 form of the word's characters, the only one there is. *)
Theorem C51_bytes_utf8 : forall c bs, 0 <= c < 1114112 -> utf8 c = bs <-> utf8_bytes c bs.
Proof.
  intros c bs Hc. split.
  - intros <-. unfold utf8.
    pose proof (Z.div_mod c 64 ltac:(lia)). pose proof (Z.mod_pos_bound c 64 ltac:(lia)).
    pose proof (Z.div_mod (c / 64) 64 ltac:(lia)). pose proof (Z.mod_pos_bound (c / 64) 64 ltac:(lia)).
    pose proof (Z.div_mod (c / 4096) 64 ltac:(lia)). pose proof (Z.mod_pos_bound (c / 4096) 64 ltac:(lia)).
    assert (c / 4096 = c / 64 / 64) as E2 by (rewrite Z.div_div by lia; reflexivity).
    assert (c / 262144 = c / 4096 / 64) as E3 by (rewrite Z.div_div by lia; reflexivity).
    destruct (Z.ltb_spec c 128); [constructor; lia|]. destruct (Z.ltb_spec c 2048); [|destruct (Z.ltb_spec c 65536)].
    + replace c with (2 ^ 6 * (c / 64) + c mod 64) at 1 by lia. constructor; [lia|unfold cont; lia].
    + replace c with (2 ^ 12 * (c / 4096) + 2 ^ 6 * (c / 64 mod 64) + c mod 64) at 1 by lia. constructor; unfold cont; lia.
    + replace c with (2 ^ 18 * (c / 262144) + 2 ^ 12 * (c / 4096 mod 64) + 2 ^ 6 * (c / 64 mod 64) + c mod 64) at 1 by lia. constructor; unfold cont; lia.
  - unfold cont. intros H. assert (D : forall q r, 0 <= r < 64 -> (64 * q + r) / 64 = q /\ (64 * q + r) mod 64 = r).
    { intros q r Hr. split; [symmetry; apply (Z.div_unique _ _ _ r); lia|symmetry; apply (Z.mod_unique _ _ q); lia]. }
    destruct H as [c H|a b H Hb|a b d H Hb Hd|a b d e H Hb Hd He]; unfold utf8.
    + destruct (Z.ltb_spec c 128); [reflexivity|lia].
    + destruct (Z.ltb_spec (2 ^ 6 * a + b) 128); [lia|]. destruct (Z.ltb_spec (2 ^ 6 * a + b) 2048); [|lia].
      destruct (D a b Hb) as [D1 D2]. change (2 ^ 6) with 64. rewrite D1, D2. reflexivity.
    + destruct (Z.ltb_spec (2 ^ 12 * a + 2 ^ 6 * b + d) 128); [lia|]. destruct (Z.ltb_spec (2 ^ 12 * a + 2 ^ 6 * b + d) 2048); [lia|].
      destruct (Z.ltb_spec (2 ^ 12 * a + 2 ^ 6 * b + d) 65536); [|lia].
      replace (2 ^ 12 * a + 2 ^ 6 * b + d) with (64 * (64 * a + b) + d) by lia.
      destruct (D (64 * a + b) d Hd) as [D1 D2]. destruct (D a b Hb) as [D3 D4].
      change 4096 with (64 * 64). rewrite <- Z.div_div, D1, D2, D3, D4 by lia. reflexivity.
    + set (z := 2 ^ 18 * a + 2 ^ 12 * b + 2 ^ 6 * d + e) in *.
      destruct (Z.ltb_spec z 128); [lia|]. destruct (Z.ltb_spec z 2048); [lia|]. destruct (Z.ltb_spec z 65536); [lia|].
      assert (z = 64 * (64 * (64 * a + b) + d) + e) as -> by (unfold z; lia).
      destruct (D (64 * (64 * a + b) + d) e He) as [D1 D2]. destruct (D (64 * a + b) d Hd) as [D3 D4]. destruct (D a b Hb) as [D5 D6].
      change 262144 with (64 * (64 * 64)). change 4096 with (64 * 64). rewrite <- !Z.div_div, D1, D2, D3, D4, D5, D6 by lia. reflexivity.
Qed.
Print Assumptions C51_bytes_utf8.

(** bytes() on an ASCII word gives its characters. *)
Theorem C51_bytes_ascii : forall w, Forall (fun c => 0 <= c < 128) w -> concat (map utf8 w) = w.
Proof.
  induction w as [|c w IH]; intros H; [reflexivity|]. apply Forall_cons in H as [Hc H]. cbn [map concat]. rewrite IH by exact H. unfold utf8. destruct (Z.ltb_spec c 128); [reflexivity|lia].
Qed.
Print Assumptions C51_bytes_ascii.

(** " 12  -7\nab\t" read as i32, vec of one i32, chars, and then nothing more. *)
Example C51_nonvacuous :
  fmap snd (run in_step (in_new [32; 49; 50; 32; 32; 45; 55; 10; 97; 98; 9]) [InRead (parse_int i32); InVec (parse_int i32) 1; InChars; InChecked (parse_int i32)])
    = Ok [OutVal 12; OutVec [-7]; OutChars [97; 98]; OutOpt None] /\
  words [32; 49; 50; 9] [[49; 50]] /\ in_usize (in_new [45; 55]) = Panic /\ parse_int i8 [45; 49; 50; 56] = Some (-128) /\ parse_int i8 [49; 50; 56] = None.
Proof.
  split; [vm_compute; reflexivity|]. split; [|vm_compute; auto]. apply (words_cons [32] [49; 50] [9] []); try (apply (bool_decide_unpack _); vm_compute; exact I).
  - right. exists 9, []. split; [reflexivity|]. apply (bool_decide_unpack _). vm_compute. exact I.
  - apply words_end. apply (bool_decide_unpack _). vm_compute. exact I.
Qed.
Example C51_typed_nonvacuous : in_ints [KI32; KUsize; KI64] (in_new [45; 49; 32; 55; 10; 51]) = Ok [-1; 7; 3] /\
  in_ints [KUsize] (in_new [45; 49]) = Panic /\ in_ints [KI32] (in_new [50; 49; 52; 55; 52; 56; 51; 54; 52; 56]) = Panic /\
  utf8 8364 = [226; 130; 172] /\ utf8 128512 = [240; 159; 152; 128].
Proof. repeat split; vm_compute; reflexivity. Qed.
Close Scope Z_scope.
