(** C105: the macros of src/misc/debug.rs *)
From Verif Require Import Prelude ModIntModel ModIntTextProps DebugModel DebugSpec.
Close Scope Z_scope.

Lemma line_ok line : (0 <= line < 2 ^ 32)%Z -> numeral_of line (line_text line).
Proof. intros H. destruct (u32_fmt_ok 10 line) as [P _]; [cbn; lia|lia|]. exact P. Qed.

Lemma tuple_iff {S} (es : list (expr S)) : forall s s' o r, debug_tuple es s = Ok (s', o, r) <->
  exists b, shows es s o s' b /\ r = if b : bool then Some tt else None.
Proof.
  induction es as [|e es IH]; intros s s' o r; cbn [debug_tuple].
  - split; [intros [= <- <- <-]; exists true; split; [constructor|reflexivity]|]. intros (b & H & ->). inversion H; subst. reflexivity.
  - unfold debug_single, pbind, eprint, pret. split.
    + destruct (ex_eval e s) as [[[s1 o1] [v|]]| |] eqn:E; cbn [mbind res_bind]; try discriminate.
      * destruct (debug_tuple es s1) as [[[s2 o2] r2]| |] eqn:E2; cbn [mbind res_bind]; try discriminate.
        intros [= <- <- <-]. apply IH in E2 as (b & Hs & ->). exists b. split; [|reflexivity]. rewrite app_nil_r, <- app_assoc. eapply sh_cons; eassumption.
      * intros [= <- <- <-]. exists false. split; [apply sh_stop; exact E|reflexivity].
    + intros (b & H & ->). inversion H as [|? ? ? ? ? ? ? ? ? He Hes|? ? ? ? ? He]; subst.
      * rewrite He. cbn [mbind res_bind].
        rewrite (proj2 (IH s1 s' t (if b then Some tt else None))) by eauto. cbn [mbind res_bind]. rewrite app_nil_r, <- app_assoc. reflexivity.
      * rewrite He. reflexivity.
Qed.

(** de! with debug assertions returns, normally or by unwinding, exactly as follows: # and the line number first, then the arguments,
    each evaluated once and shown when its value is there, and a line break if none of them unwound. *)
Theorem C105_de : forall S line (es : list (expr S)) s s' o r, (0 <= line < 2 ^ 32)%Z ->
  exists num, numeral_of line num /\
    (de_dev line es s = Ok (s', o, r) <->
     exists t b, shows es s t s' b /\ o = [35]%Z ++ num ++ t ++ (if b : bool then [10]%Z else []) /\ r = if b then Some tt else None).
Proof.
  intros S line es s s' o r Hl. exists (line_text line). split; [apply line_ok; exact Hl|]. unfold de_dev, pbind, eprint. cbn [mbind res_bind].
  destruct (debug_tuple es s) as [[[s1 o1] r1]| |] eqn:E; cbn [mbind res_bind].
  - apply tuple_iff in E as (b & Hs & ->). split.
    + destruct b; cbn [mbind res_bind]; intros [= <- <- <-]; eexists _, _; (split; [exact Hs|]); rewrite ?app_nil_r; auto.
    + intros (t & b' & Hs' & -> & ->). pose proof (proj2 (tuple_iff es s s1 o1 _) (ex_intro _ b (conj Hs eq_refl))) as E1.
      pose proof (proj2 (tuple_iff es s s' t _) (ex_intro _ b' (conj Hs' eq_refl))) as E2. rewrite E1 in E2. injection E2 as -> -> Eb.
      assert (b = b') as -> by (destruct b, b'; congruence). destruct b'; cbn [mbind res_bind]; rewrite ?app_nil_r; reflexivity.
  - split; [discriminate|]. intros (t & b & Hs & _). pose proof (proj2 (tuple_iff es s s' t _) (ex_intro _ b (conj Hs eq_refl))). congruence.
  - split; [discriminate|]. intros (t & b & Hs & _). pose proof (proj2 (tuple_iff es s s' t _) (ex_intro _ b (conj Hs eq_refl))). congruence.
Qed.
Print Assumptions C105_de.

(** debug_single! hands through the value and the effects of its argument, evaluated once, and shows the value after what the
    argument wrote itself; an argument that unwinds is not shown. *)
Theorem C105_single : forall S (e : expr S) s s' o r, debug_single e s = Ok (s', o, r) <->
  exists o1, ex_eval e s = Ok (s', o1, r) /\ o = o1 ++ match r with Some v => shown e v | None => [] end.
Proof.
  intros S e s s' o r. unfold debug_single, pbind, eprint, pret. destruct (ex_eval e s) as [[[s1 o1] [v|]]| |]; cbn [mbind res_bind].
  - split; [intros [= <- <- <-]; exists o1; rewrite ?app_nil_r; auto|]. intros (o2 & [= <- <- <-] & ->). rewrite ?app_nil_r. reflexivity.
  - split; [intros [= <- <- <-]; exists o1; rewrite ?app_nil_r; auto|]. intros (o2 & [= <- <- <-] & ->). rewrite ?app_nil_r. reflexivity.
  - split; [discriminate|]. intros (? & ? & _). discriminate.
  - split; [discriminate|]. intros (? & ? & _). discriminate.
Qed.
Print Assumptions C105_single.

(** de!() prints the line number. *)
Theorem C105_empty : forall S line (s : S), (0 <= line < 2 ^ 32)%Z ->
  exists num, numeral_of line num /\ de_empty line s = Ok (s, [35]%Z ++ num ++ [10]%Z, Some tt).
Proof. intros S line s H. exists (line_text line). split; [apply line_ok; exact H|reflexivity]. Qed.
Print Assumptions C105_empty.

(** A release build evaluates and prints nothing; the program goes on as with debug assertions provided the arguments have no effect
    on its state and never unwind. *)
Theorem C105_release : forall S (es : list (expr S)) s, de_release es s = Ok (s, [], Some tt).
Proof. reflexivity. Qed.
Print Assumptions C105_release.
Theorem C105_same_state : forall S line (es : list (expr S)) s,
  Forall (fun e => exists o v, ex_eval e s = Ok (s, o, Some v)) es ->
  exists o, de_dev line es s = Ok (s, o, Some tt).
Proof.
  intros S line es s H. assert (exists t, debug_tuple es s = Ok (s, t, Some tt)) as [t Ht].
  { induction H as [|e es (o & v & He) _ (t & Ht)]; [exists []; reflexivity|]. exists (o ++ shown e v ++ t).
    apply tuple_iff. exists true. split; [|reflexivity]. eapply sh_cons; [exact He|]. apply tuple_iff in Ht as ([] & Hs & E); [exact Hs|discriminate]. }
  unfold de_dev, pbind, eprint. cbn [mbind res_bind]. rewrite Ht. eexists. reflexivity.
Qed.
Print Assumptions C105_same_state.

(** Arguments with effects, one writing by itself and one unwinding: de!(x, f(), g()) on line 7, where f adds 1 to the state and writes
    "!", and g unwinds when the state is 1. *)
Definition ex_x : expr nat := Expr nat [120]%Z (fun n => [48 + Z.of_nat n]%Z) (fun s => Ok (s, [], Some s)).
Definition ex_f : expr nat := Expr unit [102; 40; 41]%Z (fun _ => [40; 41]%Z) (fun s => Ok (S s, [33]%Z, Some tt)).
Definition ex_g : expr nat := Expr unit [103; 40; 41]%Z (fun _ => [40; 41]%Z) (fun s => Ok (s, [], if s =? 1 then None else Some tt)).
Example C105_nonvacuous :
  de_dev 17 [ex_x; ex_f; ex_x] 0 = Ok (1, [35; 49; 55; 32; 120; 32; 61; 32; 48; 33; 32; 102; 40; 41; 32; 61; 32; 40; 41; 32; 120; 32; 61; 32; 49; 10]%Z, Some tt) /\
  de_dev 7 [ex_x; ex_f; ex_g; ex_x] 0 = Ok (1, [35; 55; 32; 120; 32; 61; 32; 48; 33; 32; 102; 40; 41; 32; 61; 32; 40; 41]%Z, None) /\
  de_release [ex_x; ex_f; ex_x] 0 = Ok (0, [], Some tt).
Proof. vm_compute. auto. Qed.
