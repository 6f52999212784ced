(** MinHeap over comparisons that panic, every panic caught: main theorems (C138). *)
From Verif Require Import Prelude ArraySpec HeapModel HeapSpec BinHeapModel BinHeapSpec BinHeapProof BinHeapProps Unwind BinHeapUnwindModel BinHeapUnwindSpec BinHeapUnwindProof.

Lemma rev_follows {W T} cmp (cmpU : T -> T -> uw W comparison) : follows cmp cmpU -> follows (rev_cmp cmp) (rev_u cmpU).
Proof. intros F a b w w' c H. exact (F _ _ _ _ _ H). Qed.
Lemma rev_calm {W T} (cmpU : T -> T -> uw W comparison) : calm cmpU -> calm (rev_u cmpU).
Proof. intros C a b w. apply C. Qed.
Lemma map_rev_get {T} (xs : list T) : map rev_get (map Reverse xs) = xs.
Proof. induction xs as [|x xs IH]; [reflexivity|]. cbn. rewrite IH. reflexivity. Qed.

Section Calls.
  Context {W T : Type} (cmpU : T -> T -> uw W comparison) (Ca : calm cmpU).
  Lemma push_left x w h : match push_u (rev_u cmpU) (Reverse x) (w, h) with
    | Ok ((_, l), Some _) => l ≡ₚ Reverse x :: h
    | Ok ((_, l), None) => l ≡ₚ Reverse x :: h /\ exists p, 0 < p <= length h /\ l !! p = Some (Reverse x) /\
        forall cmp le d, follows cmp cmpU -> ordered cmp le -> up_inv (rev_le le) (S (length h)) (length h) (val d (h ++ [Reverse x])) -> up_inv (rev_le le) (S (length h)) p (val d l)
    | _ => False end.
  Proof.
    unfold push_u. cbn [fst snd]. pose proof (sift_up_left (rev_u cmpU) (rev_calm _ Ca) (S (length h)) (h ++ [Reverse x]) (length h) w (Reverse x)) as H.
    specialize (H ltac:(rewrite app_length; cbn; lia) ltac:(apply list_lookup_middle; reflexivity)).
    destruct (sift_up_u (rev_u cmpU) (length h) (w, h ++ [Reverse x])) as [[[w' l] [[]|]]| |]; try exact H.
    - destruct H as [P _]. rewrite P. symmetry. apply Permutation_cons_append.
    - destruct H as [[P _] (p & Hp & Hl & Hi)]. split; [rewrite P; symmetry; apply Permutation_cons_append|]. exists p. split; [exact Hp|]. split; [exact Hl|]. intros cmp le d F O. apply (Hi (rev_cmp cmp) (rev_le le) d (rev_follows _ _ F) (rev_ordered _ _ O)).
  Qed.
  Lemma append_left other w h : match append_u (rev_u cmpU) other (w, h) with
    | Ok ((_, l), Some r) => r = [] /\ l ≡ₚ h ++ other
    | Ok ((_, l), None) => l ≡ₚ h ++ other
    | _ => False end.
  Proof.
    unfold append_u. cbn [fst snd]. destruct (length h <? length other).
    - pose proof (rebuild_tail_left (rev_u cmpU) (rev_calm _ Ca) w (other ++ h) (length other) ltac:(rewrite app_length; lia)) as H. unfold ubind.
      destruct (rebuild_tail_u (rev_u cmpU) (length other) (w, other ++ h)) as [[[w' l] [[]|]]| |]; try contradiction; cbn; [split; [reflexivity|]|]; rewrite H; apply Permutation_app_comm.
    - pose proof (rebuild_tail_left (rev_u cmpU) (rev_calm _ Ca) w (h ++ other) (length h) ltac:(rewrite app_length; lia)) as H. unfold ubind.
      destruct (rebuild_tail_u (rev_u cmpU) (length h) (w, h ++ other)) as [[[w' l] [[]|]]| |]; try contradiction; cbn; [split; [reflexivity|]|]; exact H.
  Qed.
  Lemma pop_left w h : match h with
    | [] => pop_u (rev_u cmpU) (w, h) = Ok ((w, h), Some None)
    | top :: _ => match pop_u (rev_u cmpU) (w, h) with
      | Ok ((_, l), Some r) => r = Some top /\ h ≡ₚ top :: l
      | Ok ((_, l), None) => h ≡ₚ top :: l /\ exists item rest p, h = top :: rest ++ [item] /\ l !! p = Some item /\ length l = S (length rest) /\
          forall cmp le d, follows cmp cmpU -> ordered cmp le -> heap_on (rev_le le) 1 (S (length rest)) (val d (item :: rest)) -> bot_inv (rev_le le) (S (length rest)) p (val d l)
      | _ => False end end.
  Proof.
    unfold pop_u. cbn [fst snd]. destruct (rev h) as [|item r] eqn:E.
    - apply (f_equal (@rev _)) in E. rewrite rev_involutive in E. subst h. reflexivity.
    - apply (f_equal (@rev _)) in E. rewrite rev_involutive in E. cbn [rev] in E. destruct (rev r) as [|top rest]; subst h; cbn [app]; [split; reflexivity|].
      pose proof (sift_bottom_left (rev_u cmpU) (rev_calm _ Ca) item rest w) as H. cbv zeta in H. unfold ubind.
      destruct (sift_down_to_bottom_u (rev_u cmpU) (w, item :: rest)) as [[[w' l] [[]|]]| |]; try contradiction; cbn [mbind res_bind uret].
      + split; [reflexivity|]. rewrite H, <- Permutation_cons_append. reflexivity.
      + destruct H as [P (p & Hp & Hi)]. split; [rewrite P, <- Permutation_cons_append; reflexivity|]. exists item, rest, p. split; [reflexivity|]. split; [exact Hp|]. split; [rewrite P; reflexivity|].
        intros cmp le d F O. apply (Hi (rev_cmp cmp) (rev_le le) d (rev_follows _ _ F) (rev_ordered _ _ O)).
  Qed.
  Lemma step_left o w h : exists w' h' out, mhu_step cmpU o (w, h) = Ok ((w', h'), out) /\ bag_after (map rev_get h) o out (map rev_get h').
  Proof.
    destruct o as [x| | | |xs| |]; cbn [mhu_step].
    - pose proof (push_left x w h) as H. unfold ubind. destruct (push_u (rev_u cmpU) (Reverse x) (w, h)) as [[[w' l] [[]|]]| |]; try contradiction; cbn [mbind res_bind uret]; eexists _, _, _; (split; [reflexivity|]).
      + apply ba_ok, bs_push. rewrite H. reflexivity.
      + apply ba_push. rewrite (proj1 H). reflexivity.
    - pose proof (pop_left w h) as H. unfold ubind. destruct h as [|top h].
      + rewrite H. cbn. eexists _, _, _. split; [reflexivity|]. apply ba_ok, bs_pop_none.
      + destruct (pop_u (rev_u cmpU) (w, top :: h)) as [[[w' l] [r|]]| |]; try contradiction; cbn [mbind res_bind uret]; eexists _, _, _; (split; [reflexivity|]).
        * destruct H as [-> H]. apply ba_ok, bs_pop_some. rewrite H. reflexivity.
        * destruct H as [H _]. apply ba_pop with (rev_get top). rewrite H. reflexivity.
    - eexists _, _, _. split; [reflexivity|]. apply ba_ok. destruct h as [|top h]; cbn; [constructor|]. constructor. left.
    - eexists _, _, _. split; [reflexivity|]. apply ba_ok. cbn [snd]. rewrite <- (map_length rev_get h). constructor.
    - pose proof (append_left (map Reverse xs) w h) as H. unfold ubind. destruct (append_u (rev_u cmpU) (map Reverse xs) (w, h)) as [[[w' l] [r|]]| |]; try contradiction; cbn [mbind res_bind uret]; eexists _, _, _; (split; [reflexivity|]).
      + destruct H as [-> H]. apply ba_ok, bs_append. rewrite H, map_app, map_rev_get. reflexivity.
      + apply ba_append. rewrite H, map_app, map_rev_get. reflexivity.
    - eexists _, _, _. split; [reflexivity|]. apply ba_ok. constructor. cbn [snd]. rewrite Nat.eqb_eq. destruct h; cbn; split; congruence.
    - eexists _, _, _. split; [reflexivity|]. apply ba_ok. constructor.
  Qed.
End Calls.

(** C138: whatever the comparisons answer and whenever they unwind, every history of calls with the panics caught keeps the elements of a bag:
    nothing is lost or made up, except that a pop that unwinds drops the element it had taken out; no access is out of bounds. *)
Theorem C138_bag {W T} (cmpU : T -> T -> uw W comparison) : calm cmpU -> forall ops w h,
  exists w' h' outs, urun (mhu_step cmpU) (w, h) ops = Ok ((w', h'), outs) /\ bag_after_run (map rev_get h) ops outs (map rev_get h').
Proof.
  intros Ca. induction ops as [|o ops IH]; intros w h; cbn [urun].
  - eexists _, _, _. split; [reflexivity|]. constructor.
  - destruct (step_left cmpU Ca o w h) as (w1 & h1 & out & -> & B1). cbn [mbind res_bind]. destruct (IH w1 h1) as (w2 & h2 & outs & -> & B2). cbn [mbind res_bind]. eexists _, _, _. split; [reflexivity|]. econstructor; eassumption.
Qed.
Print Assumptions C138_bag.

(** Comparisons that follow cmp when they answer: a call that returns does what it does over cmp (C120), so until the first panic the
    history is that of C120. *)
Theorem C138_same {W T} (cmp : T -> T -> comparison) (cmpU : T -> T -> uw W comparison) : follows cmp cmpU ->
  (forall o w h w' h' out, (forall xs, o <> MhAppend xs) -> mhu_step cmpU o (w, h) = Ok ((w', h'), Some out) -> bin_step cmp h o = Ok (h', out)) /\
  (forall other w h w' h' r, append_u (rev_u cmpU) other (w, h) = Ok ((w', h'), Some r) -> bin_append (rev_cmp cmp) h other = Ok (h', r)).
Proof.
  intros F. pose proof (rev_follows _ _ F) as RF. split; [|intros other w h w' h' r H; exact (same_append _ _ RF other _ _ _ _ _ H)].
  intros o w h w' h' out Hna H. destruct o as [x| | | |xs| |]; cbn [mhu_step bin_step] in *.
  - unfold ubind in H. destruct (push_u (rev_u cmpU) (Reverse x) (w, h)) as [[[w1 l] [[]|]]| |] eqn:E; cbn [mbind res_bind uret] in H; try discriminate. injection H as <- <- <-.
    pose proof (same_push _ _ RF _ _ _ _ _ _ E) as S. cbn beta in S. destruct (bin_push (rev_cmp cmp) h (Reverse x)); cbn [mbind res_bind] in *; try discriminate. congruence.
  - unfold ubind in H. destruct (pop_u (rev_u cmpU) (w, h)) as [[[w1 l] [r|]]| |] eqn:E; cbn [mbind res_bind uret] in H; try discriminate. injection H as <- <- <-.
    pose proof (same_pop _ _ RF _ _ _ _ _ E) as S. cbn beta in S. destruct (bin_pop (rev_cmp cmp) h) as [[r1 l1]| |]; cbn [mbind res_bind] in *; try discriminate. injection S as -> ->. reflexivity.
  - injection H as <- <- <-. reflexivity.
  - injection H as <- <- <-. reflexivity.
  - destruct (Hna xs eq_refl).
  - injection H as <- <- <-. reflexivity.
  - injection H as <- <- <-. reflexivity.
Qed.
Print Assumptions C138_same.

Lemma bot_but {A} (le : A -> A -> Prop) (d : A) p l : bot_inv le (length l) p (val d l) -> heap_but le p l.
Proof.
  intros [H1 H2] i x y Hi Hne Hx. pose proof (lookup_lt_Some _ _ _ Hx) as Hl. pose proof (par_spec i Hi) as Pi. change ((i - 1) / 2) with (par i) in *. split.
  - intros Hp Hy. specialize (H1 i ltac:(lia) Hne Hp). rewrite (val_some d l i x Hx), (val_some d l _ y Hy) in H1. exact H1.
  - intros Hp H0 Hy. change ((p - 1) / 2) with (par p) in Hy. specialize (H2 i ltac:(lia) Hp H0). rewrite (val_some d l i x Hx), (val_some d l _ y Hy) in H2. exact H2.
Qed.
Lemma but_top {A} (le : A -> A -> Prop) p l t : (forall a, le a a) -> (forall a b c, le a b -> le b c -> le a c) -> heap_but le p l -> 0 < p -> l !! 0 = Some t ->
  forall i x, i <> p -> l !! i = Some x -> le x t.
Proof.
  intros Rf Tr H Hp Ht i. induction (lt_wf i) as [i _ IH]. intros x Hne Hx. pose proof (lookup_lt_Some _ _ _ Hx) as Hl. destruct (decide (i = 0)) as [->|H0]; [rewrite Ht in Hx; injection Hx as <-; apply Rf|].
  pose proof (par_spec i ltac:(lia)) as Pi. pose proof (par_spec p Hp) as Pp. destruct (decide (par i = p)) as [E|E].
  - destruct (lookup_lt_is_Some_2 l (par p)) as [y Hy]; [lia|]. apply Tr with y; [exact (proj2 (H i x y ltac:(lia) Hne Hx) E Hp Hy)|]. apply (IH (par p)); [lia|lia|exact Hy].
  - destruct (lookup_lt_is_Some_2 l (par i)) as [y Hy]; [lia|]. apply Tr with y; [exact (proj1 (H i x y ltac:(lia) Hne Hx) E Hy)|]. apply (IH (par i)); [lia|exact E|exact Hy].
Qed.
Lemma rev_refl {T} cmp (le : T -> T -> Prop) : ordered cmp le -> forall a, rev_le le a a.
Proof. intros O a. unfold rev_le. destruct (or_total cmp le O (rev_get a) (rev_get a)); assumption. Qed.

(** A push that unwinds in a heap in order: the new element is not at the top and is the only one out of order; peek and the next pop give the
    element they would have given before, a least one of the others. *)
Theorem C138_push {W T} (cmp : T -> T -> comparison) (cmpU : T -> T -> uw W comparison) (le : T -> T -> Prop) : calm cmpU -> follows cmp cmpU -> ordered cmp le ->
  forall x w h w' h', heap_order (rev_le le) h -> mhu_step cmpU (MhPush x) (w, h) = Ok ((w', h'), None) ->
  exists p t, 0 < p /\ h' !! p = Some (Reverse x) /\ heap_but (rev_le le) p h' /\
    bin_peek h = Some (Reverse t) /\ bin_peek h' = Some (Reverse t) /\ (forall y, y ∈ map rev_get h -> le t y) /\
    forall i y, i <> p -> h' !! i = Some (Reverse y) -> le t y.
Proof.
  intros Ca F O x w h w' h' Ho H. cbn [mhu_step] in H. pose proof (push_left cmpU Ca x w h) as L. unfold ubind in H. destruct (push_u (rev_u cmpU) (Reverse x) (w, h)) as [[[w1 l] [[]|]]| |] eqn:Ep; cbn [mbind res_bind uret] in H; try discriminate. injection H as <- <-.
  destruct L as (P & p & Hp & Hx & Hi). destruct h as [|[t] h]; [cbn in Hp; lia|]. set (h0 := Reverse t :: h) in *.
  assert (Ll : length l = S (length h0)) by (rewrite P; reflexivity).
  assert (V : forall i, i < length h0 -> val (Reverse x) (h0 ++ [Reverse x]) i = val (Reverse x) h0 i) by (intros i Hl; unfold val; rewrite lookup_app_l by exact Hl; reflexivity).
  assert (U : up_inv (rev_le le) (S (length h0)) (length h0) (val (Reverse x) (h0 ++ [Reverse x]))).
  { apply (heap_order_on (rev_le le) (Reverse x)) in Ho. split.
    - intros i Hl Hne. pose proof (par_spec i ltac:(lia)). rewrite !V by lia. apply Ho; lia.
    - intros c Hc Ec. pose proof (par_spec c ltac:(lia)). lia. }
  assert (B : heap_but (rev_le le) p l). { apply (bot_but _ (Reverse x)). rewrite Ll. apply up_bot. exact (Hi cmp le (Reverse x) F O U). }
  assert (Tr : forall a b c, rev_le le a b -> rev_le le b c -> rev_le le a c) by (intros a b c H1 H2; exact (or_trans _ _ O _ _ _ H2 H1)).
  assert (L0 : forall y, y ∈ map rev_get h0 -> le t y).
  { intros y Hy. apply elem_of_list_fmap in Hy as (z & -> & Hz). exact (heap_top (rev_cmp cmp) (rev_le le) h0 (Reverse t) (rev_ordered cmp le O) Ho eq_refl z Hz). }
  assert (P0 : l !! 0 = Some (Reverse t)).
  { unfold push_u, sift_up_u in Ep. cbn [fst snd] in Ep.
    rewrite (ubind_ok _ _ _ _ _ (at_ok w (h0 ++ [Reverse x]) (length h0) (Reverse x) ltac:(apply list_lookup_middle; reflexivity))) in Ep.
    pose proof (uloop_inv (fun m p (s : W * list (reverse T)) => p = m /\ p < length s.2 /\ (0 < p -> s.2 !! 0 = Some (Reverse t))) (fun _ _ => True) (fun s => s.2 !! 0 = Some (Reverse t)) (up_step_u (rev_u cmpU) (Reverse x))) as Hl.
    match type of Hl with ?P -> _ => assert (HP : P) end; [|specialize (Hl HP (S (length h0)) (length h0) (length h0) (w, h0 ++ [Reverse x]) ltac:(lia)); rewrite Ep in Hl; apply Hl; split; [reflexivity|]; cbn [snd]; split; [rewrite app_length; cbn; lia|intros _; reflexivity]].
    intros m q [w3 d] (-> & Hq & H0). cbn [snd] in *. unfold up_step_u. destruct (Nat.ltb_spec 0 m) as [Hm|Hm].
    - pose proof (par_spec m Hm) as Pm. change ((m - 1) / 2) with (par m). specialize (H0 Hm). destruct (lookup_lt_is_Some_2 d (par m)) as [z Hz]; [lia|]. rewrite (ubind_ok _ _ _ _ _ (at_ok w3 d (par m) z Hz)).
      destruct (hole_cases (rev_u cmpU) (rev_calm _ Ca) (Reverse x) m (fun o => match o with Gt => false | _ => true end) (Reverse x) z w3 d) as [(w4 & E)|(w4 & o & E & _)]; [lia| |]; fold (le_u (rev_u cmpU) (Reverse x) z) in E.
      + rewrite (ubind_unwound _ _ _ _ E). cbn [snd]. rewrite list_lookup_insert_ne by lia. exact H0.
      + rewrite (ubind_ok _ _ _ _ _ E). destruct (match o with Gt => false | _ => true end).
        * rewrite (ubind_ok _ _ _ _ _ (put_ok w4 d m (Reverse x) ltac:(lia))). exact I.
        * rewrite (ubind_ok _ _ _ _ _ (put_ok w4 d m z ltac:(lia))). unfold uret. cbn [snd]. exists (par m). split; [lia|]. split; [reflexivity|]. rewrite insert_length. split; [lia|]. intros _. rewrite list_lookup_insert_ne by lia. exact H0.
    - rewrite (ubind_ok _ _ _ _ _ (put_ok w3 d m (Reverse x) ltac:(lia))). exact I. }
  exists p, t. split; [lia|]. split; [exact Hx|]. split; [exact B|]. split; [reflexivity|]. split; [exact P0|]. split; [exact L0|].
  intros i y Hne Hy. exact (but_top (rev_le le) p l (Reverse t) (rev_refl cmp le O) Tr B ltac:(lia) P0 i (Reverse y) Hne Hy).
Qed.
Print Assumptions C138_push.

(** A pop that unwinds in a heap in order: the least element it had taken out is lost, and only the element that was last in the array may
    be out of order; unless that one is at the top, the top is a least one of the others. *)
Theorem C138_pop {W T} (cmp : T -> T -> comparison) (cmpU : T -> T -> uw W comparison) (le : T -> T -> Prop) : calm cmpU -> follows cmp cmpU -> ordered cmp le ->
  forall w h w' h', heap_order (rev_le le) h -> mhu_step cmpU MhPop (w, h) = Ok ((w', h'), None) ->
  exists t x p, bin_peek h = Some (Reverse t) /\ (forall y, y ∈ map rev_get h -> le t y) /\ map rev_get h ≡ₚ t :: map rev_get h' /\
    last h = Some (Reverse x) /\ h' !! p = Some (Reverse x) /\ heap_but (rev_le le) p h' /\
    forall t', 0 < p -> bin_peek h' = Some (Reverse t') -> forall i y, i <> p -> h' !! i = Some (Reverse y) -> le t' y.
Proof.
  intros Ca F O w h w' h' Ho H. cbn [mhu_step] in H. pose proof (pop_left cmpU Ca w h) as L. unfold ubind in H. destruct h as [|[t] h]; [rewrite L in H; discriminate|]. set (h0 := Reverse t :: h) in *.
  destruct (pop_u (rev_u cmpU) (w, h0)) as [[[w1 l] [r|]]| |]; cbn [mbind res_bind uret] in H; try discriminate. injection H as <- <-.
  destruct L as (P & [x] & rest & p & E & Hx & Ll & Hi).
  assert (Tr : forall a b c, rev_le le a b -> rev_le le b c -> rev_le le a c) by (intros a b c H1 H2; exact (or_trans _ _ O _ _ _ H2 H1)).
  assert (B : heap_but (rev_le le) p l).
  { apply (bot_but _ (Reverse x)). rewrite Ll. apply (Hi cmp le (Reverse x) F O). apply (heap_order_on (rev_le le) (Reverse x)) in Ho.
    assert (V : forall i, 0 < i < S (length rest) -> val (Reverse x) (Reverse x :: rest) i = val (Reverse x) h0 i).
    { intros i Hl. rewrite E. destruct i as [|i]; [lia|]. unfold val. change ((Reverse t :: rest ++ [Reverse x]) !! S i) with ((rest ++ [Reverse x]) !! i). rewrite lookup_app_l by lia. reflexivity. }
    intros i Hl Hp. pose proof (par_spec i ltac:(lia)). rewrite !V by lia. apply Ho; [|lia]. rewrite E. cbn [length]. rewrite app_length. cbn. lia. }
  exists t, x, p. split; [reflexivity|]. split; [|split; [rewrite P; reflexivity|split; [rewrite E; rewrite app_comm_cons; apply last_snoc|split; [exact Hx|split; [exact B|]]]]].
  - intros y Hy. apply elem_of_list_fmap in Hy as (z & -> & Hz). exact (heap_top (rev_cmp cmp) (rev_le le) h0 (Reverse t) (rev_ordered cmp le O) Ho eq_refl z Hz).
  - intros t' Hp Ht i y Hne Hy. exact (but_top (rev_le le) p l (Reverse t') (rev_refl cmp le O) Tr B Hp Ht i (Reverse y) Hne Hy).
Qed.
Print Assumptions C138_pop.

(** Comparisons of integers that unwind at the comparisons numbered by the state: the push of 1 unwinds, so that 5 comes out
    first; then the pop of 1 unwinds, and 1 is lost. *)
Definition ex_cmpU (bad : list nat) (a b : Z) : uw nat comparison := fun w => Ok (S w, if decide (w ∈ bad) then None else Some (a ?= b)%Z).
Example C138_nonvacuous : calm (ex_cmpU [4; 9]) /\ follows Z.compare (ex_cmpU [4; 9]) /\ ordered Z.compare Z.le /\
  snd <$> urun (mhu_step (ex_cmpU [4; 9])) (0, []) [MhPush 5; MhPush 6; MhPush 7; MhPush 8; MhPush 1; MhPeek; MhLen; MhPop; MhPop; MhPop; MhPop; MhPop]%Z =
    Ok [Some MhUnit; Some MhUnit; Some MhUnit; Some MhUnit; None; Some (MhOpt (Some 5)); Some (MhNum 5); Some (MhOpt (Some 5)); None; Some (MhOpt (Some 6)); Some (MhOpt (Some 7)); Some (MhOpt (Some 8))]%Z.
Proof.
  split; [intros a b w; eexists _, _; reflexivity|]. split; [|split; [split; [intros a b; reflexivity|intros a b; apply Z.compare_antisym|intros a b c; lia]|vm_compute; reflexivity]].
  intros a b w w' c H. unfold ex_cmpU in H. destruct (decide (w ∈ [4; 9])); [discriminate|]. congruence.
Qed.
