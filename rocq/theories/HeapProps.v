(** Property theorems for src/data_structure/min_heap.rs (C14, C53). *)
From Coq Require Import Sorting.Sorted.
From Verif Require Import Prelude ArraySpec HeapModel HeapSpec HeapList.

Section Proof.
  Context {T : Type} (le : T -> T -> Prop).
  Context (B : binheap (reverse T)) (content : bh B -> list (reverse T)).
  Context (C : binheap_contract (rev_le le) B content).

  Definition bag (h : bh B) : list T := map rev_get (content h).

  Lemma rev_get_in x l : x ∈ l -> rev_get x ∈ map (@rev_get T) l.
  Proof. intros H. apply elem_of_list_fmap. eauto. Qed.

  Lemma bag_nil h : content h = [] <-> bag h = [].
  Proof. unfold bag. destruct (content h); cbn; split; congruence. Qed.

  Lemma bag_max h x : x ∈ content h -> (forall y, y ∈ content h -> rev_le le y x) -> least le (bag h) (rev_get x).
  Proof.
    intros H1 H2. split; [apply rev_get_in; exact H1|].
    intros y Hy. apply elem_of_list_fmap in Hy as (z & -> & Hz). apply (H2 z Hz).
  Qed.

  Lemma bag_pushes xs : forall h, bag (fold_left (mh_push B) xs h) ≡ₚ bag h ++ xs.
  Proof.
    induction xs as [|x xs IH]; intros h; cbn [fold_left].
    - rewrite app_nil_r. reflexivity.
    - rewrite IH. unfold mh_push at 1, bag at 1. rewrite (bc_push _ _ _ C). cbn. fold (bag h).
      apply Permutation_middle.
  Qed.

  Lemma mh_step_spec h o : exists h' out, mh_step B h o = Ok (h', out) /\ mh_spec le (bag h) o out (bag h').
  Proof.
    destruct o as [x| | | |xs| |]; cbn [mh_step].
    - eexists _, _. split; [reflexivity|]. constructor. unfold mh_push, bag. rewrite (bc_push _ _ _ C). reflexivity.
    - unfold mh_pop. destruct (bh_pop B h) as [[x h']|] eqn:E.
      + eexists _, _. split; [reflexivity|]. apply (bc_pop_some _ _ _ C) in E as [E1 E2]. constructor.
        * apply bag_max; [rewrite E1; apply elem_of_cons; auto|exact E2].
        * unfold bag. rewrite E1. reflexivity.
      + eexists _, _. split; [reflexivity|]. apply (bc_pop_none _ _ _ C), bag_nil in E. rewrite E. constructor.
    - eexists _, _. split; [reflexivity|]. unfold mh_peek. destruct (bh_peek B h) as [x|] eqn:E.
      + apply (bc_peek_some _ _ _ C) in E as [E1 E2]. constructor. apply bag_max; assumption.
      + apply (bc_peek_none _ _ _ C), bag_nil in E. rewrite E. constructor.
    - eexists _, _. split; [reflexivity|]. unfold mh_len. rewrite (bc_len _ _ _ C).
      replace (length (content h)) with (length (bag h)) by apply map_length. constructor.
    - unfold mh_append. destruct (bh_append B h (fold_left (mh_push B) xs (mh_new B))) as [h1 h2] eqn:E.
      eexists _, _. split; [reflexivity|]. apply (bc_append _ _ _ C) in E as [E1 E2].
      unfold mh_len. rewrite (bc_len _ _ _ C), E2. constructor.
      unfold bag at 1. rewrite E1, map_app. fold (bag h).
      apply Permutation_app_head. fold (bag (fold_left (mh_push B) xs (mh_new B))). rewrite bag_pushes.
      unfold bag, mh_new. rewrite (bc_new _ _ _ C). reflexivity.
    - eexists _, _. split; [reflexivity|]. constructor. unfold mh_is_empty. rewrite (bc_is_empty _ _ _ C). apply bag_nil.
    - eexists _, _. split; [reflexivity|]. unfold mh_clear. unfold bag at 2. rewrite (bc_clear _ _ _ C). constructor.
  Qed.

  Lemma mh_run_spec ops : forall h, exists h' outs,
    run (mh_step B) h ops = Ok (h', outs) /\ mh_spec_run le (bag h) ops outs (bag h').
  Proof.
    induction ops as [|o ops IH]; intros h; cbn [run].
    - eexists _, _. split; [reflexivity|constructor].
    - destruct (mh_step_spec h o) as (h1 & out & -> & H1). cbn [mbind res_bind].
      destruct (IH h1) as (h2 & outs & -> & H2). cbn [mbind res_bind].
      eexists _, _. split; [reflexivity|]. econstructor; eassumption.
  Qed.

  Lemma mh_history ops : exists h outs,
    run (mh_step B) (mh_new B) ops = Ok (h, outs) /\ mh_spec_run le [] ops outs (bag h) /\
    mh_into_sorted_vec B h ≡ₚ bag h /\ StronglySorted (fun a b => le b a) (mh_into_sorted_vec B h).
  Proof.
    destruct (mh_run_spec ops (mh_new B)) as (h & outs & E & H).
    exists h, outs. split; [exact E|]. split.
    { assert (bag (mh_new B) = []) as E0 by (unfold bag, mh_new; rewrite (bc_new _ _ _ C); reflexivity).
      rewrite E0 in H. exact H. }
    unfold mh_into_sorted_vec, bag. destruct (bc_into_sorted_vec _ _ _ C h) as [H1 H2]. split; [rewrite H1; reflexivity|].
    clear - H2. induction H2 as [|a l Hs IH Ha]; cbn; constructor; [exact IH|].
    apply Forall_forall. intros y Hy. apply elem_of_list_fmap in Hy as (z & -> & Hz).
    rewrite Forall_forall in Ha. apply (Ha z Hz).
  Qed.
End Proof.

(** C14: every history of calls on a fresh MinHeap answers as a bag does: pop removes and peek shows a
    least element (None exactly when empty), len counts, append moves everything and empties the other heap. *)
Theorem C14_min_heap {T} (le : T -> T -> Prop) (B : binheap (reverse T)) content :
  binheap_contract (rev_le le) B content ->
  forall ops, exists h outs bag,
    run (mh_step B) (mh_new B) ops = Ok (h, outs) /\ mh_spec_run le [] ops outs bag.
Proof. intros C ops. destruct (mh_history le B content C ops) as (h & outs & E & H & _). eauto. Qed.
Print Assumptions C14_min_heap.

Example C14_min_heap_nonvacuous :
  binheap_contract (rev_le Z.le) zheap (fun h => h) /\
  run (mh_step zheap) (mh_new zheap)
    [MhPush 3; MhPush 1; MhPush 2; MhPeek; MhPop; MhAppend [0; 5]; MhLen; MhPop; MhIsEmpty; MhClear; MhPop]%Z
  = Ok ([], [MhUnit; MhUnit; MhUnit; MhOpt (Some 1); MhOpt (Some 1); MhNum 0; MhNum 4; MhOpt (Some 0);
             MhBool false; MhUnit; MhOpt None]%Z).
Proof. split; [apply zheap_contract|vm_compute; reflexivity]. Qed.

(** C53, as claimed (non-decreasing order), is false: Reverse makes the ascending order of the inner heap a
    descending order of the elements. *)
Theorem C53_into_sorted_vec_refuted :
  exists (B : binheap (reverse Z)) content ops h outs,
    binheap_contract (rev_le Z.le) B content /\
    run (mh_step B) (mh_new B) ops = Ok (h, outs) /\
    ~ StronglySorted Z.le (mh_into_sorted_vec B h).
Proof.
  exists zheap, (fun h => h), [MhPush 1%Z; MhPush 2%Z]. eexists _, _.
  split; [apply zheap_contract|]. split; [reflexivity|]. vm_compute.
  intros H. inversion H as [|? ? _ F]; subst. inversion F as [|? ? E]; subst. apply E. reflexivity.
Qed.
Print Assumptions C53_into_sorted_vec_refuted.

(** What does hold: the vector has exactly the elements of the bag, in non-increasing order. *)
Theorem C53_into_sorted_vec_partial {T} (le : T -> T -> Prop) (B : binheap (reverse T)) content :
  binheap_contract (rev_le le) B content ->
  forall ops, exists h outs bag,
    run (mh_step B) (mh_new B) ops = Ok (h, outs) /\ mh_spec_run le [] ops outs bag /\
    mh_into_sorted_vec B h ≡ₚ bag /\ StronglySorted (fun a b => le b a) (mh_into_sorted_vec B h).
Proof. intros C ops. destruct (mh_history le B content C ops) as (h & outs & E & H & H1 & H2). eauto 10. Qed.
Print Assumptions C53_into_sorted_vec_partial.

Example C53_into_sorted_vec_partial_nonvacuous :
  binheap_contract (rev_le Z.le) zheap (fun h => h) /\
  mh_into_sorted_vec zheap [Reverse 1; Reverse 3; Reverse 2]%Z = [3; 2; 1]%Z.
Proof. split; [apply zheap_contract|vm_compute; reflexivity]. Qed.
