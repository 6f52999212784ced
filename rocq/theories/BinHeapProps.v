(** MinHeap over the algorithms of BinaryHeap (C120). *)
From Coq Require Import Sorting.Sorted.
From Verif Require Import Prelude ArraySpec HeapModel HeapSpec BinHeapModel BinHeapSpec BinHeapProof.

Lemma rev_ordered {T} (cmp : T -> T -> comparison) le : ordered cmp le -> ordered (rev_cmp cmp) (rev_le le).
Proof.
  intros O. split; unfold rev_cmp, rev_le.
  - intros a b. apply (or_le _ _ O).
  - intros a b. apply (or_opp _ _ O).
  - intros a b c H1 H2. exact (or_trans _ _ O _ _ _ H2 H1).
Qed.
Lemma pushes_ok {T} (cmp : T -> T -> comparison) xs : forall h, exists h', rfor xs (fun x other => bin_push (rev_cmp cmp) other (Reverse x)) h = Ok h' /\
  map rev_get h' ≡ₚ map rev_get h ++ xs /\ forall le, ordered cmp le -> heap_order (rev_le le) h -> heap_order (rev_le le) h'.
Proof.
  induction xs as [|x xs IH]; intros h; cbn [rfor].
  - exists h. split; [reflexivity|]. rewrite app_nil_r. split; [reflexivity|auto].
  - destruct (push_ok (rev_cmp cmp) h (Reverse x)) as (h1 & -> & P & I). cbn [mbind res_bind]. destruct (IH h1) as (h2 & E & P2 & I2). exists h2. split; [exact E|]. split.
    + rewrite P2, P. cbn. apply Permutation_middle.
    + intros le O H. apply I2; [exact O|]. apply I; [apply rev_ordered; exact O|exact H].
Qed.
(** One call: what it does to the bag, with and without laws. *)
Lemma step_ok {T} (cmp : T -> T -> comparison) h o : exists h' out, bin_step cmp h o = Ok (h', out) /\ bag_spec (map rev_get h) o out (map rev_get h') /\
  forall le, ordered cmp le -> heap_order (rev_le le) h -> heap_order (rev_le le) h' /\ mh_spec le (map rev_get h) o out (map rev_get h').
Proof.
  assert (Least : forall (le : T -> T -> Prop) (l : list (reverse T)) x, ordered cmp le -> heap_order (rev_le le) l -> l !! 0 = Some x -> least le (map rev_get l) (rev_get x)).
  { intros le l x O H Hx. split; [apply elem_of_list_fmap; exists x; split; [reflexivity|]; eapply elem_of_list_lookup_2; eauto|]. intros y Hy. apply elem_of_list_fmap in Hy as (z & -> & Hz).
    exact (heap_top (rev_cmp cmp) (rev_le le) l x (rev_ordered cmp le O) H Hx z Hz). }
  destruct o as [x| | | |xs| |]; cbn [bin_step].
  - destruct (push_ok (rev_cmp cmp) h (Reverse x)) as (h1 & -> & P & I). cbn [mbind res_bind]. eexists _, _. split; [reflexivity|]. assert (P' : map rev_get h1 ≡ₚ x :: map rev_get h) by (rewrite P; reflexivity).
    split; [constructor; exact P'|]. intros le O H. split; [apply I; [apply rev_ordered; exact O|exact H]|constructor; exact P'].
  - pose proof (pop_ok (rev_cmp cmp) h) as Hp. destruct h as [|top h0] eqn:Eh; [rewrite Hp; cbn [mbind res_bind]; eexists _, _; split; [reflexivity|]; split; [constructor|]; intros le O H; split; [exact H|constructor]|]. rewrite <- Eh in *.
    destruct Hp as (l & -> & P & I). cbn [mbind res_bind]. eexists _, _. split; [reflexivity|]. assert (P' : map rev_get h ≡ₚ rev_get top :: map rev_get l) by (rewrite P; reflexivity).
    split; [constructor; exact P'|]. intros le O H. split; [apply I; [apply rev_ordered; exact O|exact H]|]. constructor; [|exact P']. apply Least; [exact O|exact H|rewrite Eh; reflexivity].
  - eexists _, _. split; [reflexivity|]. unfold bin_peek. destruct h as [|top h0]; cbn [lookup list_lookup]; [split; [constructor|]; intros le O H; split; [exact H|constructor]|].
    split; [constructor; left|]. intros le O H. split; [exact H|]. constructor. apply Least; [exact O|exact H|reflexivity].
  - eexists _, _. split; [reflexivity|]. replace (length h) with (length (map rev_get h)) by apply map_length. split; [constructor|]. intros le O H. split; [exact H|constructor].
  - destruct (pushes_ok cmp xs []) as (other & -> & P & I). cbn [mbind res_bind]. destruct (append_ok (rev_cmp cmp) h other) as (h1 & -> & P1 & I1). cbn [mbind res_bind]. eexists _, _. split; [reflexivity|].
    assert (P' : map rev_get h1 ≡ₚ map rev_get h ++ xs) by (rewrite P1, map_app, P; reflexivity). split; [constructor; exact P'|]. intros le O H. split; [|constructor; exact P'].
    apply I1; [apply rev_ordered; exact O|exact H|]. apply I; [exact O|apply heap_order_nil].
  - eexists _, _. split; [reflexivity|]. assert (E : (length h =? 0) = true <-> map rev_get h = []) by (rewrite Nat.eqb_eq; destruct h; cbn; split; congruence). split; [constructor; exact E|]. intros le O H. split; [exact H|constructor; exact E].
  - eexists _, _. split; [reflexivity|]. split; [constructor|]. intros le O _. split; [apply heap_order_nil|constructor].
Qed.
Lemma run_ok {T} (cmp : T -> T -> comparison) ops : forall h, exists h' outs, run (bin_step cmp) h ops = Ok (h', outs) /\ bag_run (map rev_get h) ops outs (map rev_get h') /\
  forall le, ordered cmp le -> heap_order (rev_le le) h -> heap_order (rev_le le) h' /\ mh_spec_run le (map rev_get h) ops outs (map rev_get h').
Proof.
  induction ops as [|o ops IH]; intros h; cbn [run].
  - eexists _, _. split; [reflexivity|]. split; [constructor|]. intros le O H. split; [exact H|constructor].
  - destruct (step_ok cmp h o) as (h1 & out & -> & S1 & L1). cbn [mbind res_bind]. destruct (IH h1) as (h2 & outs & -> & S2 & L2). cbn [mbind res_bind]. eexists _, _. split; [reflexivity|].
    split; [econstructor; eassumption|]. intros le O H. destruct (L1 le O H) as [H1 M1]. destruct (L2 le O H1) as [H2 M2]. split; [exact H2|econstructor; eassumption].
Qed.

(** For an ordered type every history of MinHeap calls answers as the priority queue of C14 does; no access is out of bounds, the array keeps its shape,
    and into_sorted_vec is the content in descending order. *)
Theorem C120_min_heap {T} (cmp : T -> T -> comparison) (le : T -> T -> Prop) ops : ordered cmp le ->
  exists h outs sorted, run (bin_step cmp) [] ops = Ok (h, outs) /\ mh_spec_run le [] ops outs (map rev_get h) /\ heap_order (rev_le le) h /\
    bin_sorted cmp h = Ok sorted /\ sorted ≡ₚ map rev_get h /\ StronglySorted (fun a b => le b a) sorted.
Proof.
  intros O. destruct (run_ok cmp ops []) as (h & outs & E & _ & L). destruct (L le O (heap_order_nil _)) as [H M]. destruct (sorted_ok (rev_cmp cmp) h) as (l & El & P & S).
  exists h, outs, (map rev_get l). split; [exact E|]. split; [exact M|]. split; [exact H|]. unfold bin_sorted. rewrite El. cbn [mbind res_bind]. split; [reflexivity|]. split; [rewrite P; reflexivity|].
  specialize (S _ (rev_ordered cmp le O) H). clear -S. induction S as [|x l S IH F]; cbn; constructor; [exact IH|]. apply Forall_forall. intros y Hy. apply elem_of_list_fmap in Hy as (z & -> & Hz). rewrite Forall_forall in F. exact (F z Hz).
Qed.
Print Assumptions C120_min_heap.
Definition ex_ops : list (mh_op Z) := [MhPush 5; MhPush 2; MhPush 8; MhPush 2; MhAppend [7; 1; 9; 3; 4]; MhPop; MhPush 6; MhPop; MhPeek; MhLen]%Z.
Example C120_min_heap_nonvacuous : ordered Z.compare Z.le /\
  (s ← run (bin_step Z.compare) [] ex_ops; Ok (s.2, map rev_get s.1)) = Ok ([MhUnit; MhUnit; MhUnit; MhUnit; MhNum 0; MhOpt (Some 1); MhUnit; MhOpt (Some 2); MhOpt (Some 2); MhNum 8], [2; 3; 6; 5; 4; 9; 7; 8])%Z /\
  (s ← run (bin_step Z.compare) [] ex_ops; bin_sorted Z.compare s.1) = Ok [9; 8; 7; 6; 5; 4; 3; 2]%Z.
Proof.
  split; [|split; vm_compute; reflexivity]. split; [intros a b; reflexivity|intros a b; apply Z.compare_antisym|intros a b c; lia].
Qed.

(** Whatever cmp answers (an Ord that breaks its contract), MinHeap stays a bag: no panic, no endless loop, no access out of bounds, nothing lost or
    made up; into_sorted_vec is a permutation of the content. *)
Theorem C120_any_order {T} (cmp : T -> T -> comparison) ops :
  exists h outs sorted, run (bin_step cmp) [] ops = Ok (h, outs) /\ bag_run [] ops outs (map rev_get h) /\ bin_sorted cmp h = Ok sorted /\ sorted ≡ₚ map rev_get h.
Proof.
  destruct (run_ok cmp ops []) as (h & outs & E & B & _). destruct (sorted_ok (rev_cmp cmp) h) as (l & El & P & _). exists h, outs, (map rev_get l). split; [exact E|]. split; [exact B|].
  unfold bin_sorted. rewrite El. cbn [mbind res_bind]. split; [reflexivity|]. rewrite P. reflexivity.
Qed.
Print Assumptions C120_any_order.
(** An order that says Less always. *)
Example C120_any_order_nonvacuous : (s ← run (bin_step (fun _ _ : Z => Lt)) [] ex_ops; Ok (s.2, map rev_get s.1)) =
  Ok ([MhUnit; MhUnit; MhUnit; MhUnit; MhNum 0; MhOpt (Some 7); MhUnit; MhOpt (Some 9); MhOpt (Some 2); MhNum 8], [2; 1; 2; 3; 4; 5; 6; 8])%Z.
Proof. vm_compute. reflexivity. Qed.

(** ** The contract of HeapModel.v is met by these algorithms *)
Section Instance.
  Context {A : Type} (cmp : A -> A -> comparison) (le : A -> A -> Prop) (O : ordered cmp le).
  Definition got {X} (r : res X) (d : X) : X := match r with Ok x => x | _ => d end.
  Definition hp : Type := { l : list A | heap_order le l }.
  Lemma push_hp (h : hp) x : heap_order le (got (bin_push cmp (proj1_sig h) x) []).
  Proof. destruct h as [l H]. cbn. destruct (push_ok cmp l x) as (l' & -> & _ & I). cbn. auto. Qed.
  Lemma pop_hp (h : hp) : heap_order le (got (bin_pop cmp (proj1_sig h)) (None, [])).2.
  Proof. destruct h as [l H]. cbn. pose proof (pop_ok cmp l) as P. destruct l as [|top l]; [rewrite P; apply heap_order_nil|]. destruct P as (l' & -> & _ & I). cbn. auto. Qed.
  Lemma append_hp (h h2 : hp) : heap_order le (got (bin_append cmp (proj1_sig h) (proj1_sig h2)) ([], [])).1.
  Proof. destruct h as [l H], h2 as [l2 H2]. cbn. destruct (append_ok cmp l l2) as (l' & -> & _ & I). cbn. auto. Qed.
  Definition std_heap : binheap A := {|
    bh := hp;
    bh_new := exist _ [] (heap_order_nil le);
    bh_push h x := exist _ _ (push_hp h x);
    bh_pop h := match (got (bin_pop cmp (proj1_sig h)) (None, [])).1 with Some x => Some (x, exist _ _ (pop_hp h)) | None => None end;
    bh_peek h := bin_peek (proj1_sig h);
    bh_len h := length (proj1_sig h);
    bh_append h1 h2 := (exist _ _ (append_hp h1 h2), exist _ [] (heap_order_nil le));
    bh_is_empty h := length (proj1_sig h) =? 0;
    bh_clear _ := exist _ [] (heap_order_nil le);
    bh_into_sorted_vec h := got (bin_into_sorted_vec cmp (proj1_sig h)) [] |}.
End Instance.
Lemma std_contract_ok {A} (cmp : A -> A -> comparison) (le : A -> A -> Prop) (O : ordered cmp le) :
  let B := std_heap cmp le O in let content : bh B -> list A := @proj1_sig _ _ in
  binheap_contract le B content /\
    (forall h x, bin_push cmp (content h) x = Ok (content (bh_push B h x))) /\
    (forall h, bin_pop cmp (content h) = Ok match bh_pop B h with Some (x, h') => (Some x, content h') | None => (None, []) end) /\
    (forall h, bh_peek B h = bin_peek (content h)) /\
    (forall h1 h2, bin_append cmp (content h1) (content h2) = Ok (content (bh_append B h1 h2).1, content (bh_append B h1 h2).2)) /\
    (forall h, bin_into_sorted_vec cmp (content h) = Ok (bh_into_sorted_vec B h)).
Proof.
  intros B content. subst content.
  assert (Pop : forall h : hp le, (proj1_sig h = [] /\ bh_pop B h = None /\ bin_pop cmp (proj1_sig h) = Ok (None, [])) \/
    (exists top h', proj1_sig h !! 0 = Some top /\ bh_pop B h = Some (top, h') /\ bin_pop cmp (proj1_sig h) = Ok (Some top, proj1_sig h') /\ proj1_sig h ≡ₚ top :: proj1_sig h')).
  { intros h. unfold B. cbn [bh_pop std_heap]. generalize (pop_hp cmp le O h). destruct h as [l H]. cbn [proj1_sig]. pose proof (pop_ok cmp l) as P. destruct l as [|top l].
    - rewrite P. cbn. intros _. left. auto.
    - destruct P as (l' & -> & P & _). cbn. intros Hp. right. eexists top, _. split; [reflexivity|]. split; [reflexivity|]. split; [reflexivity|exact P]. }
  split; [split|]; [reflexivity| | | | | | | | |reflexivity| |].
  - intros [l H] x. cbn. destruct (push_ok cmp l x) as (l' & -> & P & _). exact P.
  - intros h. destruct (Pop h) as [(E & -> & _)|(top & h' & E & -> & _)]; [tauto|]. split; [discriminate|]. intros E'. rewrite E' in E. discriminate E.
  - intros h x h' E. destruct (Pop h) as [(_ & E' & _)|(top & h1 & H0 & E' & _ & P)]; rewrite E' in E; [discriminate E|]. injection E as -> ->. split; [exact P|]. exact (heap_top cmp le (proj1_sig h) x O (proj2_sig h) H0).
  - intros [l H]. cbn. unfold bin_peek. destruct l; cbn; split; congruence.
  - intros h x E. split; [eapply elem_of_list_lookup_2; exact E|]. exact (heap_top cmp le (proj1_sig h) x O (proj2_sig h) E).
  - reflexivity.
  - intros [l1 H1] [l2 H2] h1' h2' E. cbn in E. injection E as <- <-. cbn. destruct (append_ok cmp l1 l2) as (l' & -> & P & _). auto.
  - intros [l H]. cbn. rewrite Nat.eqb_eq. destruct l; cbn; split; congruence.
  - intros [l H]. unfold B. cbn [bh_into_sorted_vec std_heap proj1_sig]. destruct (sorted_ok cmp l) as (l' & -> & P & S). cbn. auto.
  - split_and!.
    + intros [l H] x. cbn. destruct (push_ok cmp l x) as (l' & -> & _). reflexivity.
    + intros h. destruct (Pop h) as [(_ & -> & ->)|(top & h' & _ & -> & -> & _)]; reflexivity.
    + reflexivity.
    + intros [l1 H1] [l2 H2]. cbn. destruct (append_ok cmp l1 l2) as (l' & -> & _). reflexivity.
    + intros [l H]. unfold B. cbn [bh_into_sorted_vec std_heap proj1_sig]. destruct (sorted_ok cmp l) as (l' & -> & _). reflexivity.
Qed.
Theorem C120_contract {A} (cmp : A -> A -> comparison) (le : A -> A -> Prop) : ordered cmp le ->
  exists (B : binheap A) (content : bh B -> list A), binheap_contract le B content /\
    (forall h x, bin_push cmp (content h) x = Ok (content (bh_push B h x))) /\
    (forall h, bin_pop cmp (content h) = Ok match bh_pop B h with Some (x, h') => (Some x, content h') | None => (None, []) end) /\
    (forall h, bh_peek B h = bin_peek (content h)) /\
    (forall h1 h2, bin_append cmp (content h1) (content h2) = Ok (content (bh_append B h1 h2).1, content (bh_append B h1 h2).2)) /\
    (forall h, bin_into_sorted_vec cmp (content h) = Ok (bh_into_sorted_vec B h)).
Proof. intros O. exists (std_heap cmp le O), (@proj1_sig _ _). exact (std_contract_ok cmp le O). Qed.
Print Assumptions C120_contract.
