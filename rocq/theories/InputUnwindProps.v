(** Properties of the input reader after caught panics (C83). *)
From Verif Require Import Prelude ArraySpec Unwind IntModel InputSpec InputModel InputProps InputUnwindModel InputUnwindSpec LazyUnwindOps.

Lemma strip_next st : strip (inu_next st) = ('(o, st) ← in_next st; Ok (st, o)).
Proof. unfold strip, inu_next. destruct (in_next st) as [[o st']| |]; reflexivity. Qed.
Lemma strip_unwrap {X A} (o : option A) (s : X) : strip (uunwrap o s) = (a ← runwrap o; Ok (s, a)).
Proof. exact (strip_read (fun _ => runwrap o) s). Qed.
Lemma strip_in_read {V} (parse : list Z -> option V) st : strip (inu_read parse st) = ('(v, st) ← in_read parse st; Ok (st, v)).
Proof.
  unfold inu_read, in_read. rewrite strip_bind, strip_next. destruct (in_next st) as [[o st']| |]; cbn [mbind res_bind]; [|reflexivity|reflexivity].
  rewrite strip_bind, strip_unwrap. destruct (runwrap o) as [w| |]; cbn [mbind res_bind]; [|reflexivity|reflexivity]. rewrite strip_unwrap.
  destruct (runwrap (parse w)); reflexivity.
Qed.
Lemma strip_in_vec {V} (parse : list Z -> option V) n st : strip (inu_vec parse n st) = ('(v, st) ← in_vec parse n st; Ok (st, v)).
Proof.
  unfold inu_vec, in_vec. generalize (range 0 n). intros xs.
  match goal with |- strip (ufor xs ?f _ st) = mbind _ (rfor xs ?g _) =>
    cut (forall acc, strip (ufor xs f acc st) = ('(v, st) ← rfor xs g (acc, st); Ok (st, v))); [intros H; apply H|] end.
  revert st. induction xs as [|x xs IH]; intros st acc; [reflexivity|]. cbn [ufor rfor fst snd].
  rewrite strip_bind, strip_bind, strip_in_read. destruct (in_read parse st) as [[v st']| |]; cbn [mbind res_bind]; [|reflexivity|reflexivity]. apply IH.
Qed.
Lemma strip_in_step {V} (o : in_op V) st : strip (inu_step o st) = in_step st o.
Proof.
  destruct o as [parse|parse| | |parse n]; cbn [inu_step in_step]; rewrite strip_bind.
  - rewrite strip_in_read. destruct (in_read parse st) as [[? ?]| |]; reflexivity.
  - unfold inu_checked_read, in_checked_read. rewrite strip_bind, strip_next. destruct (in_next st) as [[[x|] st']| |]; cbn [mbind res_bind]; [|reflexivity|reflexivity|reflexivity].
    rewrite strip_bind, strip_unwrap. destruct (runwrap (parse x)); reflexivity.
  - unfold inu_bytes, in_bytes. rewrite strip_bind, strip_next. destruct (in_next st) as [[o st']| |]; cbn [mbind res_bind]; [|reflexivity|reflexivity].
    rewrite strip_bind, strip_unwrap. destruct (runwrap o); reflexivity.
  - unfold inu_chars, in_chars. rewrite strip_bind, strip_next. destruct (in_next st) as [[o st']| |]; cbn [mbind res_bind]; [|reflexivity|reflexivity].
    rewrite strip_bind, strip_unwrap. destruct (runwrap o); reflexivity.
  - rewrite strip_in_vec. destruct (in_vec parse n st) as [[? ?]| |]; reflexivity.
Qed.

Lemma inu_next_ok st l : holds st l -> exists st', inu_next st = Ok (st', Some (head l)) /\ holds st' (tail l).
Proof. intros H. destruct (next_ok st l H) as (st' & E & H'). exists st'. split; [|exact H']. unfold inu_next. rewrite E. reflexivity. Qed.

Lemma inu_read_ok {V} (parse : list Z -> option V) st l : holds st l ->
  exists st', inu_read parse st = Ok (st', head l ≫= parse) /\ holds st' (tail l).
Proof.
  intros H. destruct (inu_next_ok st l H) as (st' & E & H'). exists st'. split; [|exact H']. unfold inu_read. rewrite (ubind_ok _ _ _ _ _ E).
  destruct l as [|w l]; [reflexivity|]. cbn [head]. unfold uunwrap, ubind, uread. cbn. destruct (parse w); reflexivity.
Qed.

Lemma inu_vec_ok {V} (parse : list Z -> option V) n : forall a acc st l, holds st l ->
  exists st' l' out, ufor (seq a n) (fun _ acc => v <~ inu_read parse ;~ uret (acc ++ [v])) acc st = Ok (st', out) /\ holds st' l' /\
    match out with
    | Some vs' => exists vs ws, vs' = acc ++ vs /\ l = ws ++ l' /\ length ws = n /\ Forall2 (fun w v => parse w = Some v) ws vs
    | None => exists ws vs, Forall2 (fun w v => parse w = Some v) ws vs /\ length ws < n /\
        ((exists w, l = ws ++ w :: l' /\ parse w = None) \/ (l = ws /\ l' = []))
    end.
Proof.
  induction n as [|n IH]; intros a acc st l H; cbn [seq ufor].
  - exists st, l, (Some acc). split; [reflexivity|]. split; [exact H|]. exists [], []. rewrite app_nil_r. repeat split. constructor.
  - destruct (inu_read_ok parse st l H) as (st1 & E & H1). destruct l as [|w l]; cbn [head tail] in *.
    { exists st1, [], None. split; [|split; [exact H1|]].
      - apply ubind_unwound, ubind_unwound. exact E.
      - exists [], []. split; [constructor|]. split; [cbn; lia|]. right. auto. }
    cbn in E. destruct (parse w) as [v|] eqn:Ep.
    + destruct (IH (S a) (acc ++ [v]) st1 l H1) as (st' & l' & out & E' & H' & R). exists st', l', out. split; [|split; [exact H'|]].
      * rewrite (ubind_ok _ _ _ st1 (acc ++ [v])); [exact E'|]. rewrite (ubind_ok _ _ _ _ _ E). reflexivity.
      * destruct out as [vs'|].
        -- destruct R as (vs & ws & -> & -> & <- & F). exists (v :: vs), (w :: ws). rewrite <- app_assoc. repeat split. constructor; assumption.
        -- destruct R as (ws & vs & F & Hl & R). exists (w :: ws), (v :: vs). split; [constructor; assumption|]. split; [cbn; lia|].
           destruct R as [(w' & -> & Hw)|[-> ->]]; [left; exists w'; auto|right; auto].
    + exists st1, l, None. split; [apply ubind_unwound, ubind_unwound; exact E|]. split; [exact H1|].
      exists [], []. split; [constructor|]. split; [cbn; lia|]. left. exists w. auto.
Qed.

Lemma inu_step_ok {V} (o : in_op V) st l : holds st l ->
  exists st' out l', inu_step o st = Ok (st', out) /\ holds st' l' /\ in_after_step utf8 l o out l'.
Proof.
  intros H. destruct o as [parse|parse| | |parse n]; cbn [inu_step].
  - destruct (inu_read_ok parse st l H) as (st' & E & H'). exists st', (OutVal <$> (head l ≫= parse)), (tail l). split; [|split; [exact H'|]].
    + unfold ubind. rewrite E. cbn [mbind res_bind]. destruct (head l ≫= parse); reflexivity.
    + destruct l as [|w l]; constructor.
  - destruct (inu_next_ok st l H) as (st' & E & H'). destruct l as [|w l]; cbn [head tail] in *.
    + exists st', (Some (OutOpt None)), []. split; [|split; [exact H'|constructor]]. unfold inu_checked_read, ubind. rewrite E. reflexivity.
    + exists st', (OutOpt ∘ Some <$> parse w), l. split; [|split; [exact H'|constructor]]. unfold inu_checked_read, ubind. rewrite E. cbn [mbind res_bind].
      unfold uunwrap, uread. destruct (parse w); reflexivity.
  - destruct (inu_next_ok st l H) as (st' & E & H'). unfold inu_bytes. destruct l as [|w l]; cbn [head tail] in *; unfold ubind; rewrite E; eexists _, _, _; (split; [reflexivity|split; [exact H'|constructor]]).
  - destruct (inu_next_ok st l H) as (st' & E & H'). unfold inu_chars. destruct l as [|w l]; cbn [head tail] in *; unfold ubind; rewrite E; eexists _, _, _; (split; [reflexivity|split; [exact H'|constructor]]).
  - destruct (inu_vec_ok parse n 0 [] st l H) as (st' & l' & out & E & H' & R). exists st', (OutVec <$> out), l'. split; [|split; [exact H'|]].
    + unfold inu_vec, range. rewrite Nat.sub_0_r. unfold ubind at 1. rewrite E. cbn [mbind res_bind]. destruct out; reflexivity.
    + destruct out as [vs'|]; cbn.
      * destruct R as (vs & ws & -> & -> & <- & F). constructor. exact F.
      * destruct R as (ws & vs & F & Hl & [(w & -> & Hw)|[-> ->]]); econstructor; eassumption.
Qed.

(** C83: the programs that advance the iterator step by step are those of InputModel.v. *)
Theorem C83_same_code_input : forall V (o : in_op V) st, strip (inu_step o st) = in_step st o.
Proof. intros V o st. apply strip_in_step. Qed.
Print Assumptions C83_same_code_input.

(** C83: any calls on a reader of the text s, every panic caught and the reader used further: a read that fails has consumed its
    word, a vec that fails has consumed the words up to and including the first bad one, and once the words are used up they
    stay used up. *)
Theorem C83_input : forall V s l (ops : list (in_op V)), words s l ->
  exists st outs, urun inu_step (in_new s) ops = Ok (st, outs) /\ in_after utf8 l ops outs.
Proof.
  intros V s l ops H. change (holds (in_new s) l) in H. revert H. generalize (in_new s). clear s. revert l.
  induction ops as [|o ops IH]; intros l st H; cbn [urun]; [eexists _, _; split; [reflexivity|constructor]|].
  destruct (inu_step_ok o st l H) as (st1 & out & l1 & -> & H1 & R). destruct (IH l1 st1 H1) as (st2 & outs & E & Ra). cbn [mbind res_bind]. rewrite E. cbn [mbind res_bind].
  eexists _, _. split; [reflexivity|]. econstructor; eassumption.
Qed.
Print Assumptions C83_input.

(** "1 x 2 y 3 4" read as usize: x fails, a vec of three fails at y and leaves 3. *)
Definition ex_text : list Z := [49; 32; 120; 32; 50; 32; 121; 32; 51; 32; 52]%Z.
Example C83_input_nonvacuous : words ex_text [[49]; [120]; [50]; [121]; [51]; [52]]%Z /\
  exists st, urun inu_step (in_new ex_text) [InRead (parse_int usize); InRead (parse_int usize); InVec (parse_int usize) 3; InRead (parse_int usize);
    InVec (parse_int usize) 2; InChecked (parse_int usize); InRead (parse_int usize)] =
    Ok (st, [Some (OutVal 1); None; None; Some (OutVal 3); None; Some (OutOpt None); None])%Z.
Proof.
  split; [|eexists; vm_compute; reflexivity].
  assert (forall c s l, bool_decide (c ∉ white) = true -> words s l -> words (c :: 32 :: s)%Z ([c] :: l)) as H.
  { intros c s l Hc Hw. assert (32 ∈ white)%Z as Hs by (apply (bool_decide_unpack _); vm_compute; exact I).
    apply (words_cons [] [c] (32 :: s)%Z l); [constructor|discriminate| |right; eauto|apply words_space; assumption].
    constructor; [apply bool_decide_eq_true_1 in Hc; exact Hc|constructor]. }
  unfold ex_text. do 5 (apply H; [vm_compute; reflexivity|]).
  apply (words_cons [] [52%Z] [] []); [constructor|discriminate| |auto|apply words_end; constructor].
  constructor; [|constructor]. apply (bool_decide_unpack _). vm_compute. exact I.
Qed.
