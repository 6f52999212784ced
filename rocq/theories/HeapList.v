(** A simple heap meeting the BinaryHeap contract: an unsorted list, sorted when asked (smallest element for
    [le], that is largest for the heap order, first).  Used to show that the contract can be met. *)
From Coq Require Import Sorting.Sorted.
From Verif Require Import Prelude HeapModel.

Section ListHeap.
  Context {T : Type} (le : T -> T -> Prop) (leb : T -> T -> bool).
  Context (leb_le : forall a b, leb a b = true <-> le a b).
  Context (le_refl : forall a, le a a) (le_trans : forall a b c, le a b -> le b c -> le a c) (le_total : forall a b, le a b \/ le b a).

Fixpoint ins (x : reverse T) (l : list (reverse T)) : list (reverse T) :=
  match l with
  | [] => [x]
  | y :: l' => if leb (rev_get x) (rev_get y) then x :: l else y :: ins x l'
  end.
Definition isort (l : list (reverse T)) : list (reverse T) := fold_right ins [] l.

Lemma ins_perm x l : ins x l ≡ₚ x :: l.
Proof.
  induction l as [|y l IH]; cbn; [reflexivity|]. destruct (leb _ _); [reflexivity|].
  rewrite IH. constructor.
Qed.
Lemma isort_perm l : isort l ≡ₚ l.
Proof. induction l as [|x l IH]; cbn; [reflexivity|]. rewrite ins_perm, IH. reflexivity. Qed.

Definition up (a b : reverse T) : Prop := le (rev_get a) (rev_get b).
Lemma ins_sorted x l : StronglySorted up l -> StronglySorted up (ins x l).
Proof.
  induction 1 as [|y l Hs IH Hy]; cbn; [repeat constructor|].
  destruct (leb (rev_get x) (rev_get y)) eqn:E.
  - apply leb_le in E. constructor; [constructor; assumption|]. constructor; [exact E|].
    eapply Forall_impl; [exact Hy|]. unfold up. intros z Hz. eapply le_trans; eassumption.
  - assert (up y x). { unfold up. destruct (le_total (rev_get y) (rev_get x)) as [H|H]; [exact H|]. apply leb_le in H. congruence. }
    constructor; [exact IH|]. rewrite ins_perm. constructor; assumption.
Qed.
Lemma isort_sorted l : StronglySorted up (isort l).
Proof. induction l; cbn; [constructor|apply ins_sorted; assumption]. Qed.
Lemma isort_nil l : isort l = [] <-> l = [].
Proof.
  split; [|intros ->; reflexivity]. intros E. pose proof (isort_perm l) as P. rewrite E in P.
  apply Permutation_nil in P. exact P.
Qed.
Lemma isort_cons l x l' : isort l = x :: l' -> l ≡ₚ x :: l' /\ forall y, y ∈ l -> rev_le le y x.
Proof.
  intros E. pose proof (isort_perm l) as P. pose proof (isort_sorted l) as S. rewrite E in *.
  split; [symmetry; exact P|]. intros y Hy. rewrite <- P in Hy. apply elem_of_cons in Hy as [->|Hy].
  - apply le_refl.
  - inversion S as [|? ? _ F]; subst. rewrite Forall_forall in F. apply (F y Hy).
Qed.

Definition list_heap : binheap (reverse T) := {|
  bh := list (reverse T);
  bh_new := [];
  bh_push h x := x :: h;
  bh_pop h := match isort h with [] => None | x :: h => Some (x, h) end;
  bh_peek h := head (isort h);
  bh_len h := length h;
  bh_append h1 h2 := (h1 ++ h2, []);
  bh_is_empty h := match h with [] => true | _ => false end;
  bh_clear _ := [];
  bh_into_sorted_vec h := rev (isort h) |}.

Lemma StronglySorted_rev l : StronglySorted up l -> StronglySorted (rev_le le) (rev l).
Proof.
  induction 1 as [|x l Hs IH Hx]; cbn; [constructor|].
  assert (Hx' : forall y, y ∈ rev l -> up x y).
  { intros y Hy. rewrite Forall_forall in Hx. apply Hx. apply elem_of_list_In. apply in_rev.
    apply elem_of_list_In. exact Hy. }
  revert IH Hx'. generalize (rev l). intros r IH Hx'. induction IH as [|y r Hr IHr Hy]; cbn.
  - repeat constructor.
  - constructor.
    + apply IHr. intros z Hz. apply Hx'. apply elem_of_cons. auto.
    + apply Forall_app. split; [exact Hy|]. repeat constructor. apply Hx', elem_of_cons. auto.
Qed.

Lemma list_heap_contract : binheap_contract (rev_le le) list_heap (fun h => h).
Proof.
  split; cbn.
  - reflexivity.
  - reflexivity.
  - intros h. rewrite <- isort_nil. destruct (isort h); split; congruence.
  - intros h x h'. destruct (isort h) eqn:E; intros [= <- <-]. apply isort_cons. exact E.
  - intros h. rewrite <- isort_nil. destruct (isort h); split; cbn; congruence.
  - intros h x. destruct (isort h) eqn:E; intros [= <-]. apply isort_cons in E as [P L]. split; [|exact L].
    rewrite P. apply elem_of_cons. auto.
  - reflexivity.
  - intros h1 h2 ? ? [= <- <-]. auto.
  - intros []; split; congruence.
  - reflexivity.
  - intros h. split; [|apply StronglySorted_rev, isort_sorted].
    rewrite <- Permutation_rev. apply isort_perm.
Qed.
End ListHeap.

Definition zheap : binheap (reverse Z) := list_heap Z.leb.
Lemma zheap_contract : binheap_contract (rev_le Z.le) zheap (fun h => h).
Proof. apply list_heap_contract; intros; try apply Z.leb_le; lia. Qed.
