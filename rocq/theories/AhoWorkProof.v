(** Aho-Corasick: number of steps. *)
From Verif Require Import Prelude Eff AhoSpec AhoModel AhoStr AhoTrie AhoBuild AhoProof AhoProps GraphWorkModel AhoWorkSpec AhoWorkModel.

Section rules.
  Lemma costs_lift {A} (r : res A) : costs (elift r) r (fun _ => 0).
  Proof. intros w. unfold elift. destruct r; cbn; [rewrite Nat.add_0_r|..]; reflexivity. Qed.
  Lemma costs_ret {A} (a : A) : costs (eret a) (Ok a) (fun _ => 0).
  Proof. intros w. cbn. rewrite Nat.add_0_r. reflexivity. Qed.
  Lemma costs_bind {A B} m (r : res A) c1 f (g : A -> res B) c : costs m r c1 ->
    (forall a, r = Ok a -> exists c2, costs (f a) (g a) c2 /\ forall b, g a = Ok b -> c1 a + c2 b = c b) -> costs (ebind m f) (r ≫= g) c.
  Proof.
    intros H1 H2 w. unfold ebind. rewrite (H1 w). destruct r as [a| |]; cbn [mbind res_bind]; [|reflexivity|reflexivity].
    destruct (H2 a eq_refl) as (c2 & H3 & H4). rewrite (H3 (w + c1 a)). destruct (g a) as [b| |]; cbn [mbind res_bind]; [|reflexivity|reflexivity].
    rewrite <- (H4 b eq_refl). f_equal. f_equal. lia.
  Qed.
  Lemma costs_tick {B} f (g : res B) c c2 : costs f g c2 -> (forall b, g = Ok b -> 1 + c2 b = c b) -> costs (ebind tick (fun _ => f)) g c.
  Proof.
    intros H1 H2 w. unfold ebind, tick. cbn [mbind res_bind]. rewrite (H1 (w + 1)). destruct g as [b| |]; cbn [mbind res_bind]; [|reflexivity|reflexivity].
    rewrite <- (H2 b eq_refl). f_equal. f_equal. lia.
  Qed.
  Lemma costs_ticks {B} k f (g : res B) c c2 : costs f g c2 -> (forall b, g = Ok b -> k + c2 b = c b) -> costs (ebind (ticks k) (fun _ => f)) g c.
  Proof.
    intros H1 H2 w. unfold ebind, ticks. cbn [mbind res_bind]. rewrite (H1 (w + k)). destruct g as [b| |]; cbn [mbind res_bind]; [|reflexivity|reflexivity].
    rewrite <- (H2 b eq_refl). f_equal. f_equal. lia.
  Qed.
  (** A part without calls, then the rest *)
  Lemma costs_lift_bind {A B} (r : res A) f (g : A -> res B) c : (forall a, r = Ok a -> costs (f a) (g a) c) -> costs (ebind (elift r) f) (r ≫= g) c.
  Proof. intros H. eapply costs_bind; [apply costs_lift|]. intros a E. exists c. split; [apply H; exact E|reflexivity]. Qed.
  Lemma costs_ext {A} m (r : res A) c c' : costs m r c -> (forall a, r = Ok a -> c a = c' a) -> costs m r c'.
  Proof. intros H E w. rewrite (H w). destruct r as [a| |]; cbn; [rewrite (E a eq_refl)|..]; reflexivity. Qed.
  (** A loop whose turns cost as much as the measure of the state grows *)
  Lemma costs_for {A S} (mu : S -> nat) (xs : list A) (bodyW : A -> S -> eff nat S) body :
    (forall x s, costs (bodyW x s) (body x s) (fun s' => mu s' - mu s)) -> (forall x s s', body x s = Ok s' -> mu s <= mu s') ->
    forall s, costs (efor xs bodyW s) (rfor xs body s) (fun s' => mu s' - mu s) /\ forall s', rfor xs body s = Ok s' -> mu s <= mu s'.
  Proof.
    intros H M. induction xs as [|x xs IH]; intros s; cbn [efor rfor].
    - split; [eapply costs_ext; [apply costs_ret|]; intros a [= <-]; lia|]. intros s' [= <-]. lia.
    - split.
      + eapply costs_bind; [apply H|]. intros s1 E1. destruct (IH s1) as [C1 M1]. exists (fun s' => mu s' - mu s1). split; [exact C1|]. intros s2 E2.
        specialize (M1 s2 E2). specialize (M x s s1 E1). lia.
      + intros s' E. apply rbind_ok_inv in E as (s1 & E1 & E). destruct (IH s1) as [_ M1]. specialize (M1 s' E). specialize (M x s s1 E1). lia.
  Qed.
  (** A loop whose turns cost k each *)
  Lemma costs_for_const {A S} k (xs : list A) (bodyW : A -> S -> eff nat S) body :
    (forall x s, costs (bodyW x s) (body x s) (fun _ => k)) -> forall s, costs (efor xs bodyW s) (rfor xs body s) (fun _ => length xs * k).
  Proof.
    intros H. induction xs as [|x xs IH]; intros s; cbn [efor rfor length]; [apply costs_ret|].
    eapply costs_bind; [apply H|]. intros s1 _. eexists. split; [apply IH|]. intros. cbn. lia.
  Qed.
  Lemma costs_loop {S A} (muS : S -> nat) (muA : A -> nat) (stepW : S -> eff nat (S + A)) step :
    (forall s, costs (stepW s) (step s) (fun y => match y with inl s' => muS s' | inr a => muA a end - muS s)) ->
    (forall s y, step s = Ok y -> muS s <= match y with inl s' => muS s' | inr a => muA a end) ->
    forall fuel s, costs (eloop fuel stepW s) (rloop fuel step s) (fun a => muA a - muS s) /\ forall a, rloop fuel step s = Ok a -> muS s <= muA a.
  Proof.
    intros H M. induction fuel as [|fuel IH]; intros s; [split; [intros w; reflexivity|discriminate]|]. cbn [eloop rloop]. split.
    - eapply costs_bind; [apply H|]. intros y E. specialize (M s y E). destruct y as [s'|a].
      + destruct (IH s') as [C1 M1]. eexists. split; [exact C1|]. intros b Eb. specialize (M1 b Eb). cbn beta. lia.
      + eexists. split; [apply costs_ret|]. intros b [= <-]. lia.
    - intros a E. apply rbind_ok_inv in E as (y & Ey & E). specialize (M s y Ey). destruct y as [s'|a']; [|injection E as <-; exact M].
      destruct (IH s') as [_ M1]. specialize (M1 a E). lia.
  Qed.
End rules.

Section Aho.
  Context (off N : nat).

  Lemma insert_costs a s i : costs (aho_insertW off N a s i) (aho_insert off N a s i) (fun _ => length s).
  Proof.
    apply costs_lift_bind. intros _ _. eapply costs_bind.
    - apply (costs_for_const 1). intros c st. eapply costs_tick; [apply costs_lift|reflexivity].
    - intros [nodes p] _. exists (fun _ => 0). split; [|intros; lia]. apply costs_lift_bind. intros x _. apply costs_lift_bind. intros nodes' _. apply costs_ret.
  Qed.
  Lemma inserts_costs ins : forall a, costs (aho_insertsW off N a ins) (aho_inserts off N a ins) (fun _ => sum_list_with (fun x => length x.1) ins).
  Proof.
    unfold aho_insertsW, aho_inserts. induction ins as [|x ins IH]; intros a; cbn [efor rfor sum_list_with]; [apply costs_ret|].
    eapply costs_bind; [apply insert_costs|]. intros a' _. eexists. split; [apply IH|]. intros. cbn. lia.
  Qed.
  Lemma edges_costs u st : costs (efor (range 0 N) (fun i st => tick ;;* elift (build_edge u i st)) st) (rfor (range 0 N) (build_edge u) st) (fun _ => N).
  Proof.
    eapply costs_ext; [apply (costs_for_const 1 (range 0 N) (fun i st => tick ;;* elift (build_edge u i st)) (build_edge u))|].
    - intros i s. eapply costs_tick; [apply costs_lift|reflexivity].
    - intros ? _. unfold range. rewrite seq_length. lia.
  Qed.
  Lemma step_costs nodes u q : costs (build_stepW N (nodes, u :: q)) (build_step N (nodes, u :: q)) (fun _ => 1 + N).
  Proof.
    eapply costs_tick; [|reflexivity]. eapply costs_bind; [apply edges_costs|]. intros st _. exists (fun _ => 0). split; [apply costs_ret|]. intros. lia.
  Qed.
  Lemma start_costs (nodes : list node) q : costs (efor (range 0 N) (fun i q =>
          tick ;;* x <* elift (vget nodes 0) ;* v <* elift (vget (nd_next x) i) ;* eret (if negb (v =? 0) then q ++ [v] else q)) q)
      (rfor (range 0 N) (fun i q => x ← vget nodes 0; v ← vget (nd_next x) i; Ok (if negb (v =? 0) then q ++ [v] else q)) q) (fun _ => N).
  Proof.
    eapply costs_ext; [apply (costs_for_const 1)|].
    - intros i s. eapply costs_tick; [|reflexivity]. apply costs_lift_bind. intros x _. apply costs_lift_bind. intros v _. apply costs_ret.
    - intros ? _. unfold range. rewrite seq_length. lia.
  Qed.

  (** *** Searches: any automaton *)
  Lemma find_costs a text : costs (aho_findW off a text) (aho_find off a text) (fun _ => length text).
  Proof.
    eapply costs_bind.
    - apply (costs_for_const 1). intros c st. eapply costs_tick; [|reflexivity]. apply costs_lift_bind. intros p _. apply costs_lift_bind. intros x _. apply costs_ret.
    - intros st _. exists (fun _ => 0). split; [apply costs_ret|]. intros. lia.
  Qed.
  (** f adds one to the measure. *)
  Lemma visit_costs {B} (mu : B -> nat) a (f : nat -> B -> res B) p acc : (forall k b b', f k b = Ok b' -> mu b' = mu b + 1) ->
    costs (visitW a f p acc) (visit a f p acc) (fun b => mu b - mu acc) /\ forall b, visit a f p acc = Ok b -> mu acc <= mu b.
  Proof.
    intros Hf.
    assert (forall fuel st, costs (eloop fuel (chain_stepW a f) st) (rloop fuel (chain_step a f) st) (fun b => mu b - mu st.1) /\ forall b, rloop fuel (chain_step a f) st = Ok b -> mu st.1 <= mu b) as HL.
    { apply (costs_loop (fun st : B * option nat => mu st.1) mu).
      - intros [b [x|]]; unfold chain_stepW, chain_step; cbn [fst].
        + intros w. unfold ebind at 1, tick at 1. cbn [mbind res_bind]. unfold ebind, elift. destruct (vget (ah_nodes a) x) as [nd| |]; cbn [mbind res_bind]; [|reflexivity|reflexivity].
          destruct (runwrap (nd_end nd)) as [k| |]; cbn [mbind res_bind]; [|reflexivity|reflexivity].
          destruct (f k b) as [b'| |] eqn:E; cbn [mbind res_bind]; [|reflexivity|reflexivity]. unfold eret. cbn [fst]. rewrite (Hf _ _ _ E). f_equal. f_equal. lia.
        + intros w. unfold eret. cbn [mbind res_bind]. f_equal. f_equal. lia.
      - intros [b [x|]] y; unfold chain_step; cbn [fst]; intros E; [|injection E as <-; lia].
        apply rbind_ok_inv in E as (nd & _ & E). apply rbind_ok_inv in E as (k & _ & E). apply rbind_ok_inv in E as (b' & E' & E). injection E as <-. cbn. rewrite (Hf _ _ _ E'). lia. }
    assert (forall x : node, costs (match nd_end x with Some k => tick ;;* elift (f k acc) | None => eret acc end) (match nd_end x with Some k => f k acc | None => Ok acc end) (fun b => mu b - mu acc) /\
      forall b, match nd_end x with Some k => f k acc | None => Ok acc end = Ok b -> mu acc <= mu b) as HE.
    { intros x. destruct (nd_end x) as [k|].
      - split; [|intros b E; rewrite (Hf _ _ _ E); lia]. eapply costs_tick; [apply costs_lift|]. intros b E. rewrite (Hf _ _ _ E). lia.
      - split; [|intros b [= <-]; lia]. eapply costs_ext; [apply costs_ret|]. intros b [= <-]. lia. }
    split.
    - apply costs_lift_bind. intros x _. destruct (HE x) as [C1 M1]. eapply costs_bind; [exact C1|]. intros b E. destruct (HL (S (length (ah_nodes a))) (b, nd_output x)) as [C2 M2].
      eexists. split; [exact C2|]. intros b' E'. specialize (M1 b E). specialize (M2 b' E'). cbn [fst] in *. lia.
    - intros b E. unfold visit in E. apply rbind_ok_inv in E as (x & _ & E). apply rbind_ok_inv in E as (b1 & E1 & E). destruct (HE x) as [_ M1]. specialize (M1 b1 E1).
      destruct (HL (S (length (ah_nodes a))) (b1, nd_output x)) as [_ M2]. specialize (M2 b E). cbn [fst] in *. lia.
  Qed.
  Lemma find_all_costs a text : costs (aho_find_allW off a text) (aho_find_all off a text) (fun r => 2 * length text + length (concat r)).
  Proof.
    unfold aho_find_allW, aho_find_all. eapply (costs_ticks _ _ _ _ (fun r => length text + length (concat r))); [|intros; lia].
    assert (forall st, costs
      (efor text (fun c st => tick ;;* p <* elift (aho_go off a st.2 c) ;* l <* visitW a (fun k l => Ok (l ++ [k])) p [] ;* eret (st.1 ++ [l], p)) st)
      (rfor text (fun c st => p ← aho_go off a st.2 c; l ← visit a (fun k l => Ok (l ++ [k])) p []; Ok (st.1 ++ [l], p)) st)
      (fun st' => length text + (length (concat st'.1) - length (concat st.1))) /\
      forall st', rfor text (fun c st => p ← aho_go off a st.2 c; l ← visit a (fun k l => Ok (l ++ [k])) p []; Ok (st.1 ++ [l], p)) st = Ok st' -> length (concat st.1) <= length (concat st'.1)) as H.
    { induction text as [|c text IH]; intros st; cbn [efor rfor length].
      - split; [|intros st' [= <-]; lia]. eapply costs_ext; [apply costs_ret|]. intros st' [= <-]. lia.
      - assert (forall p, costs (visitW a (fun k l => Ok (l ++ [k])) p []) (visit a (fun k l => Ok (l ++ [k])) p []) (fun l => length l)) as V.
        { intros p. eapply costs_ext; [apply (visit_costs (@length nat))|].
          - intros k b b' [= <-]. rewrite app_length. reflexivity.
          - intros l _. cbn. lia. }
        split.
        + eapply (costs_bind _ _ (fun st' => 1 + (length (concat st'.1) - length (concat st.1)))).
          * eapply costs_tick; [|reflexivity]. apply costs_lift_bind. intros p _. eapply costs_bind; [apply V|]. intros l _. eexists. split; [apply costs_ret|].
            intros st' [= <-]. cbn [fst]. rewrite concat_app, app_length. cbn. rewrite app_nil_r. lia.
          * intros st1 E1. destruct (IH st1) as [C1 M1]. eexists. split; [exact C1|]. intros st2 E2. specialize (M1 st2 E2).
            apply rbind_ok_inv in E1 as (p & _ & E1). apply rbind_ok_inv in E1 as (l & _ & E1). injection E1 as <-. cbn [fst] in *. rewrite concat_app, app_length in *. lia.
        + intros st2 E. apply rbind_ok_inv in E as (st1 & E1 & E). destruct (IH st1) as [_ M1]. specialize (M1 st2 E).
          apply rbind_ok_inv in E1 as (p & _ & E1). apply rbind_ok_inv in E1 as (l & _ & E1). injection E1 as <-. cbn [fst] in *. rewrite concat_app, app_length in *. lia. }
    destruct (H ([], 0)) as [C _]. eapply costs_bind; [exact C|]. intros st _. eexists. split; [apply costs_ret|]. intros r [= <-]. cbn. lia.
  Qed.
  Lemma bump_sum k cnt cnt' : (x ← vget cnt k; vset cnt k (x + 1)) = Ok cnt' -> sum_list cnt' = sum_list cnt + 1.
  Proof.
    intros E. apply rbind_ok_inv in E as (x & Ex & E). apply vget_ok_iff in Ex. pose proof (lookup_lt_Some _ _ _ Ex) as Hk. rewrite vset_ok in E by exact Hk. injection E as <-.
    clear Hk. revert k Ex. induction cnt as [|y cnt IH]; intros [|k] Ex; try discriminate; cbn in Ex |- *.
    - injection Ex as ->. lia.
    - specialize (IH k Ex). change (y + sum_list (<[k:=x + 1]> cnt) = y + sum_list cnt + 1). lia.
  Qed.
  Lemma sum_zeros n : sum_list (replicate n 0) = 0.
  Proof. induction n as [|n IH]; [reflexivity|exact IH]. Qed.
  Lemma find_cnt_costs a text : costs (aho_find_cntW off a text) (aho_find_cnt off a text) (fun r => ah_n a + length text + sum_list r).
  Proof.
    unfold aho_find_cntW, aho_find_cnt. eapply (costs_ticks _ _ _ _ (fun r => length text + sum_list r)); [|intros; lia].
    set (f := fun k cnt => x ← vget cnt k; vset cnt k (x + 1)).
    assert (forall st, costs
      (efor text (fun c st => tick ;;* p <* elift (aho_go off a st.2 c) ;* l <* visitW a f p st.1 ;* eret (l, p)) st)
      (rfor text (fun c st => p ← aho_go off a st.2 c; l ← visit a f p st.1; Ok (l, p)) st)
      (fun st' => length text + (sum_list st'.1 - sum_list st.1)) /\
      forall st', rfor text (fun c st => p ← aho_go off a st.2 c; l ← visit a f p st.1; Ok (l, p)) st = Ok st' -> sum_list st.1 <= sum_list st'.1) as H.
    { induction text as [|c text IH]; intros st; cbn [efor rfor length].
      - split; [|intros st' [= <-]; lia]. eapply costs_ext; [apply costs_ret|]. intros st' [= <-]. lia.
      - pose proof (fun p => visit_costs (fun l : list nat => sum_list l) a f p st.1 bump_sum) as V. split.
        + eapply (costs_bind _ _ (fun st' => 1 + (sum_list st'.1 - sum_list st.1))).
          * eapply costs_tick; [|reflexivity]. apply costs_lift_bind. intros p _. eapply costs_bind; [apply V|]. intros l _. eexists. split; [apply costs_ret|].
            intros st' [= <-]. cbn [fst]. lia.
          * intros st1 E1. destruct (IH st1) as [C1 M1]. eexists. split; [exact C1|]. intros st2 E2. specialize (M1 st2 E2).
            apply rbind_ok_inv in E1 as (p & _ & E1). apply rbind_ok_inv in E1 as (l & El & E1). injection E1 as <-. cbn [fst] in *. pose proof (proj2 (V p) l El). cbn beta in *. lia.
        + intros st2 E. apply rbind_ok_inv in E as (st1 & E1 & E). destruct (IH st1) as [_ M1]. specialize (M1 st2 E).
          apply rbind_ok_inv in E1 as (p & _ & E1). apply rbind_ok_inv in E1 as (l & El & E1). injection E1 as <-. cbn [fst] in *. pose proof (proj2 (V p) l El). cbn beta in *. lia. }
    destruct (H (replicate (ah_n a) 0, 0)) as [C _]. eapply costs_bind; [exact C|]. intros st _. eexists. split; [apply costs_ret|]. intros r [= <-]. cbn [fst]. rewrite sum_zeros. lia.
  Qed.
End Aho.

Section build.
  Context (off N : nat) (str : list (list nat)) (E : list nat -> option nat).
  Context (Hroot : str !! 0 = Some []) (Hnd : NoDup str) (Hpre : forall s c, s ++ [c] ∈ str -> s ∈ str)
    (Halph : forall s, s ∈ str -> in_alphabet off N s) (HE : forall s k, E s = Some k -> s ∈ str) (HE0 : E [] = None).

  Lemma done_all D : QI str D [] -> length D = length str - 1.
  Proof.
    intros Q. assert (0 :: D ≡ₚ seq 0 (length str)) as P.
    { apply NoDup_Permutation.
      - apply NoDup_cons. split; [intros H; destruct (q_in _ _ _ Q 0 (or_intror H)) as [_ H0]; congruence|]. pose proof (q_nodup _ _ _ Q) as H. exact H.
      - apply NoDup_seq.
      - intros p. rewrite elem_of_cons, elem_of_seq. split.
        + intros [->|H]; [apply lookup_lt_Some in Hroot; lia|]. destruct (q_in _ _ _ Q p (or_intror H)). lia.
        + intros [_ H]. destruct (lookup_lt_is_Some_2 str p) as [s Hs]; [lia|]. eapply all_done; eauto. }
    apply Permutation_length in P. cbn in P. rewrite seq_length in P. lia.
  Qed.
  Lemma build_loop_costs : forall fuel D nodes q, QI str D q -> NOK off N str E (fullD D) (discD D q) nodes -> length str - length D < fuel ->
    exists nodes', rloop fuel (build_step N) (nodes, q) = Ok nodes' /\ forall w, eloop fuel (build_stepW N) (nodes, q) w = Ok (nodes', w + (length str - 1 - length D) * (N + 1)).
  Proof.
    induction fuel as [|fuel IH]; intros D nodes q Q NK Hf; [lia|]. cbn [rloop eloop]. destruct q as [|u q].
    - exists nodes. split; [reflexivity|]. intros w. rewrite (done_all D Q), Nat.sub_diag. cbn. rewrite Nat.add_0_r. reflexivity.
    - destruct (q_in _ _ _ Q u) as [Hul _]; [left; left|]. destruct (lookup_lt_is_Some_2 str u Hul) as [s Hs].
      destruct (turn_ok off N str E Hroot Hnd Hpre Halph HE D q u Q s Hs nodes NK) as (nodes1 & ch & E1 & Q1 & NK1).
      assert (build_step N (nodes, u :: q) = Ok (inl (nodes1, q ++ ch))) as S1 by (unfold build_step; rewrite E1; reflexivity).
      assert (forall w, build_stepW N (nodes, u :: q) w = Ok (inl (nodes1, q ++ ch), w + 1 + N)) as S2.
      { intros w. rewrite (step_costs N nodes u q w), S1. cbn [mbind res_bind]. f_equal. f_equal. lia. }
      pose proof (done_few str D u q Q) as Hd. destruct (IH (u :: D) nodes1 (q ++ ch) Q1 NK1) as (nodes2 & E2 & W2); [cbn; lia|]. exists nodes2. rewrite S1. cbn [mbind res_bind].
      split; [exact E2|]. intros w. unfold ebind at 1. rewrite S2. cbn [mbind res_bind].
      rewrite (W2 (w + 1 + N)). cbn [length]. do 2 f_equal. assert (length D + 1 <= length str - 1) as Hd'.
      { assert (length (0 :: u :: D) <= length (seq 0 (length str))) as H; [|rewrite seq_length in H; cbn in H; lia].
        apply submseteq_length, NoDup_submseteq.
        - pose proof (q_nodup _ _ _ Q) as Hn. cbn in Hn. apply NoDup_cons in Hn as [Hn1 Hn]. apply NoDup_app in Hn as (_ & _ & Hn). apply NoDup_cons. split.
          + intros H. apply elem_of_cons in H as [<-|H]; [destruct (q_in _ _ _ Q 0 ltac:(left; left)); congruence|destruct (q_in _ _ _ Q 0 (or_intror H)); congruence].
          + apply NoDup_cons. split; [|exact Hn]. intros H. apply Hn1, elem_of_app. auto.
        - intros p H. apply elem_of_seq. cbn. split; [lia|]. apply elem_of_cons in H as [->|H]; [apply lookup_lt_Some in Hroot; exact Hroot|].
          apply elem_of_cons in H as [->|H]; apply (q_in _ _ _ Q); [left; left|right; exact H]. }
      replace (length str - 1 - length D) with (S (length str - 1 - S (length D))) by lia. cbn. lia.
  Qed.
  Context (nodes0 : list node) (Hti : TI off N str nodes0 E).
  Lemma build_costs n w : exists a, aho_build N (Aho n nodes0) = Ok a /\ aho_buildW N (Aho n nodes0) w = Ok (a, w + (N + (length str - 1) * (N + 1))).
  Proof.
    unfold aho_build, build_fuel, aho_buildW. cbn [ah_nodes ah_n]. destruct (start_ok off N str E Hroot Hnd Halph HE0 nodes0 Hti) as (q0 & E0 & Q0 & NK0).
    destruct (build_loop_costs (S (length nodes0)) [] nodes0 q0 Q0 NK0) as (nodes & E1 & W1).
    { rewrite (ti_len _ _ _ _ _ Hti). cbn. lia. }
    rewrite E0. cbn [mbind res_bind]. rewrite E1. cbn [mbind res_bind]. eexists. split; [reflexivity|]. unfold ebind at 1. rewrite (start_costs N nodes0 [] w), E0. cbn [mbind res_bind].
    unfold ebind at 1. rewrite (W1 (w + N)). unfold eret. cbn [mbind res_bind length]. rewrite Nat.sub_0_r. f_equal. f_equal. lia.
  Qed.
End build.

Lemma prefixes_few ins ps : prefixes_once ins ps -> length ps <= sum_list_with (fun x => length x.1) ins.
Proof.
  intros [Hn Hp]. assert (length (concat (map (fun x : list nat * nat => map (fun k => take (S k) x.1) (seq 0 (length x.1))) ins)) = sum_list_with (fun x => length x.1) ins) as <-.
  { clear. induction ins as [|x ins IH]; [reflexivity|]. cbn. rewrite app_length, map_length, seq_length, IH. reflexivity. }
  apply submseteq_length, NoDup_submseteq; [exact Hn|]. intros s Hs. apply Hp in Hs as (Hs & x & Hx & [t Ht]). apply elem_of_list_In, in_concat.
  exists (map (fun k => take (S k) x.1) (seq 0 (length x.1))). split; [apply (in_map (fun x : list nat * nat => map (fun k => take (S k) x.1) (seq 0 (length x.1)))), elem_of_list_In; exact Hx|].
  apply in_map_iff. exists (length s - 1). destruct s as [|c s]; [contradiction|]. split.
  - rewrite Ht. replace (S (length (c :: s) - 1)) with (length (c :: s)) by (cbn; lia). apply take_app.
  - apply in_seq. rewrite Ht, app_length. cbn. lia.
Qed.
Section total.
  Context (off N n : nat) (ins : list (list nat * nat)) (Hg : Forall (insertable off N) ins).
  Lemma of_costs : exists ps a, prefixes_once ins ps /\ aho_of off N n ins = Ok a /\ length (ah_nodes a) = 1 + length ps /\ forall w, aho_ofW off N n ins w = Ok (a, w + (sum_list_with (fun x => length x.1) ins + (N + length ps * (N + 1)))).
  Proof.
    destruct (aho_of_ok off N n ins Hg) as (str' & a' & Ea' & _ & A & Hroot' & Hnd' & _ & _ & Hl').
    destruct (inserts_ok off N n ins Hg) as (str & a & E & Hn & TH & Hl).
    pose proof TH as [Hlen Hroot Hnd Hpre Halph HE Hnode].
    assert (last_index ins [] = None) as HE0.
    { destruct (last_index ins []) as [k|] eqn:Ek; [|reflexivity]. apply last_index_in in Ek. rewrite Forall_forall in Hg. destruct (Hg _ Ek) as [H _]. contradiction. }
    assert (length (ah_nodes a') = length str) as Hlen'.
    { destruct A as [Ha _]. rewrite Ha. apply Permutation_length, NoDup_Permutation; [exact Hnd'|exact Hnd|]. intros x. rewrite Hl, Hl'. reflexivity. }
    destruct str as [|s0 str]; [discriminate|]. injection Hroot as ->. exists str, a'. destruct a as [n' nodes]. cbn [ah_n ah_nodes] in *. subst n'.
    assert (prefixes_once ins str) as HP.
    { apply NoDup_cons in Hnd as [H0 Hnd]. split; [exact Hnd|]. intros s. specialize (Hl s). rewrite elem_of_cons in Hl. unfold live in Hl. split.
      - intros H. destruct (proj1 Hl (or_intror H)) as [->|H']; [contradiction|]. split; [|exact H']. intros ->. contradiction.
      - intros [H1 H2]. destruct (proj2 Hl (or_intror H2)) as [->|H']; [contradiction|exact H']. }
    split; [exact HP|]. split; [exact Ea'|]. split; [rewrite Hlen'; reflexivity|]. intros w. unfold aho_ofW, ebind. rewrite (inserts_costs off N ins (aho_new N n) w), E. cbn [mbind res_bind].
    destruct (build_costs off N ([] :: str) (last_index ins) eq_refl Hnd Hpre Halph HE HE0 nodes TH n (w + sum_list_with (fun x => length x.1) ins)) as (a2 & E2 & W2).
    rewrite W2. unfold aho_of in Ea'. rewrite E in Ea'. cbn [mbind res_bind] in Ea'. rewrite E2 in Ea'. injection Ea' as ->. cbn [length]. f_equal. f_equal. lia.
  Qed.
End total.
Lemma efor_numbered {S} (f : list nat -> nat -> S -> eff nat S) : forall (l pre : list (list nat)) (s : S) w,
  efor (seq (length pre) (length l)) (fun i s => x <* elift (vget (pre ++ l) i) ;* f x i s) s w = efor (imap (fun i x => (x, length pre + i)) l) (fun x s => f x.1 x.2 s) s w.
Proof.
  assert (forall A (x : A) xs (b : A -> S -> eff nat S) s w, efor (x :: xs) b s w = (r ← b x s w; let '(s', w') := r in efor xs b s' w')) as EC by reflexivity.
  assert (forall A B (x : A) (g : A -> eff nat B) w, ebind (elift (Ok x)) g w = g x w) as LB by reflexivity.
  induction l as [|x l IH]; intros pre s w; [reflexivity|]. cbn [length seq imap]. rewrite !EC. rewrite (vget_ok _ _ x) by (apply list_lookup_middle; reflexivity). rewrite LB.
  cbn [fst snd]. rewrite Nat.add_0_r. destruct (f x (length pre) s w) as [[s' w']| |]; cbn [mbind res_bind]; [|reflexivity|reflexivity].
  specialize (IH (pre ++ [x]) s' w'). rewrite app_length in IH. cbn [length] in IH. rewrite Nat.add_1_r, <- app_assoc in IH. cbn [app] in IH. rewrite IH.
  f_equal. apply imap_ext. intros i y _. cbn. f_equal. lia.
Qed.
Lemma fromW_eq off N patterns w : aho_fromW off N patterns w = aho_ofW off N (length patterns) (numbered patterns) w.
Proof.
  unfold aho_fromW, aho_ofW, aho_insertsW, numbered, range. rewrite Nat.sub_0_r. unfold ebind at 1 3.
  pose proof (efor_numbered (fun s i a => aho_insertW off N a s i) patterns [] (aho_new N (length patterns)) w) as H. cbn [app length Nat.add] in H. rewrite H. reflexivity.
Qed.
