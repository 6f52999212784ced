(** Sorting, selecting and merging with MinHeap: main theorems (C140). *)
From Coq Require Import Sorting.Sorted.
From Verif Require Import Prelude ArraySpec HeapModel HeapSpec HeapList HeapProps HeapUseModel HeapUseSpec HeapUseProof.

(** C140: pushing everything and popping until None yields the elements in ascending order, the order in which into_sorted_vec lists them backwards. *)
Theorem C140_sort {T} (le : T -> T -> Prop) (B : binheap (reverse T)) content : binheap_contract (rev_le le) B content ->
  forall v, exists out, heap_sort B v = Ok out /\ out ≡ₚ v /\ StronglySorted le out /\
    ((forall a b, le a b -> le b a -> a = b) -> out = rev (mh_into_sorted_vec B (fold_left (mh_push B) v (mh_new B)))).
Proof.
  intros C v. destruct (sort_ok le B content C v) as (out & E & P & S). exists out. split; [exact E|]. split; [exact P|]. split; [exact S|]. intros An.
  set (h := fold_left (mh_push B) v (mh_new B)). destruct (bc_into_sorted_vec _ _ _ C h) as [P' S'].
  assert (Q : rev (mh_into_sorted_vec B h) ≡ₚ out).
  { rewrite <- Permutation_rev. unfold mh_into_sorted_vec. rewrite P'. change (bag B content h ≡ₚ out). unfold h. rewrite (bag_pushes le B content C), (bag_new le B content C), P. reflexivity. }
  assert (R : StronglySorted le (rev (mh_into_sorted_vec B h))).
  { clear -S'. unfold mh_into_sorted_vec. induction S' as [|a l S IH F]; cbn; [constructor|]. apply sorted_snoc; [exact IH|]. intros y Hy. apply elem_of_list_In, in_rev, elem_of_list_In in Hy. apply elem_of_list_fmap in Hy as (z & -> & Hz). rewrite Forall_forall in F. exact (F z Hz). }
  clear -Q R S An. revert Q R. generalize (rev (mh_into_sorted_vec B h)) as l. intros l. revert l. induction S as [|a out S IH F]; intros l Q R; [symmetry; apply Permutation_nil; symmetry; exact Q|].
  destruct R as [|b l R G]; [apply Permutation_nil in Q; discriminate|]. assert (a = b) as ->.
  { assert (b ∈ a :: out) as Hb by (rewrite <- Q; left). assert (a ∈ b :: l) as Ha by (rewrite Q; left). apply elem_of_cons in Hb as [->|Hb]; [reflexivity|]. apply elem_of_cons in Ha as [->|Ha]; [reflexivity|]. rewrite Forall_forall in F, G. auto. }
  f_equal. apply IH; [|exact R]. apply (Permutation_cons_inv (a := b)). exact Q.
Qed.
Print Assumptions C140_sort.

(** Pushing each element and popping whenever there are more than k leaves k largest elements (all, when there are fewer). *)
Theorem C140_top_k {T} (le : T -> T -> Prop) (B : binheap (reverse T)) content : binheap_contract (rev_le le) B content ->
  (forall a b c, le a b -> le b c -> le a c) ->
  forall k v, mh_len B (top_k B k v) = min k (length v) /\ largest le (min k (length v)) v (mh_into_sorted_vec B (top_k B k v)) /\
    StronglySorted (fun a b => le b a) (mh_into_sorted_vec B (top_k B k v)).
Proof.
  intros C Tr k v. pose proof (top_ok le B content C Tr k v) as (L & rest & P & F). rewrite (bag_len le B content C). split; [exact L|]. unfold mh_into_sorted_vec. destruct (bc_into_sorted_vec _ _ _ C (top_k B k v)) as [P' S'].
  assert (Q : map rev_get (bh_into_sorted_vec B (top_k B k v)) ≡ₚ bag B content (top_k B k v)) by (rewrite P'; reflexivity). split.
  - split; [rewrite Q; exact L|]. exists rest. split; [rewrite Q; exact P|]. intros x y Hx Hy. rewrite Q in Hy. auto.
  - clear -S'. induction S' as [|a l S IH G]; cbn; constructor; [exact IH|]. apply Forall_forall. intros y Hy. apply elem_of_list_fmap in Hy as (z & -> & Hz). rewrite Forall_forall in G. exact (G z Hz).
Qed.
Print Assumptions C140_top_k.

(** Merging sorted vectors through a heap of (value, vector, index) triples, compared by the value first: the sorted vector of all elements. *)
Theorem C140_merge {T} (le : T -> T -> Prop) (le3 : T * nat * nat -> T * nat * nat -> Prop) (B : binheap (reverse (T * nat * nat))) content :
  binheap_contract (rev_le le3) B content -> (forall a b, le3 a b -> le a.1.1 b.1.1) -> (forall a b c, le a b -> le b c -> le a c) ->
  forall vs, (forall v, v ∈ vs -> StronglySorted le v) -> exists out, merge_all B vs = Ok out /\ out ≡ₚ concat vs /\ StronglySorted le out.
Proof. intros C H3 Tr vs Sv. exact (merge_ok le Tr le3 H3 B content C vs Sv). Qed.
Print Assumptions C140_merge.

(** Two heaps, one of them over Reverse, give the lower median of every prefix. *)
Theorem C140_medians {T} (le : T -> T -> Prop) (leb : T -> T -> bool) (L : binheap (reverse (reverse T))) cl (H : binheap (reverse T)) ch :
  binheap_contract (rev_le (rev_le le)) L cl -> binheap_contract (rev_le le) H ch ->
  (forall a b, leb a b = true <-> le a b) -> (forall a b c, le a b -> le b c -> le a c) -> (forall a b, le a b \/ le b a) ->
  forall v, exists ms, medians leb L H v = Ok ms /\ length ms = length v /\ forall i m, ms !! i = Some m -> lower_median le (take (S i) v) m.
Proof. intros CL CH Lb Tr To v. exact (medians_ok le leb Lb Tr To L cl CL H ch CH v). Qed.
Print Assumptions C140_medians.

Definition le3 (a b : Z * nat * nat) : Prop := (a.1.1 < b.1.1)%Z \/ a.1.1 = b.1.1 /\ (a.1.2 < b.1.2 \/ a.1.2 = b.1.2 /\ a.2 <= b.2).
Definition leb3 (a b : Z * nat * nat) : bool := (a.1.1 <? b.1.1)%Z || (a.1.1 =? b.1.1)%Z && ((a.1.2 <? b.1.2) || (a.1.2 =? b.1.2) && (a.2 <=? b.2)).
Definition heap3 : binheap (reverse (Z * nat * nat)) := list_heap leb3.
Definition lows_heap : binheap (reverse (reverse Z)) := list_heap (fun a b => (rev_get b <=? rev_get a)%Z).
Lemma heap3_contract : binheap_contract (rev_le le3) heap3 (fun h => h).
Proof.
  apply list_heap_contract; unfold le3, leb3.
  - intros a b. rewrite orb_true_iff, andb_true_iff, orb_true_iff, andb_true_iff, Z.ltb_lt, Z.eqb_eq, Nat.ltb_lt, Nat.eqb_eq, Nat.leb_le. reflexivity.
  - intros a. lia.
  - intros a b c. lia.
  - intros a b. lia.
Qed.
Lemma lows_contract : binheap_contract (rev_le (rev_le Z.le)) lows_heap (fun h => h).
Proof. apply list_heap_contract; unfold rev_le; intros; rewrite ?Z.leb_le; lia. Qed.
Example C140_nonvacuous : binheap_contract (rev_le Z.le) zheap (fun h => h) /\ binheap_contract (rev_le le3) heap3 (fun h => h) /\ binheap_contract (rev_le (rev_le Z.le)) lows_heap (fun h => h) /\
  heap_sort zheap [5; 2; 9; 2; -1]%Z = Ok [-1; 2; 2; 5; 9]%Z /\
  mh_into_sorted_vec zheap (top_k zheap 2 [5; 2; 9; 2; -1]%Z) = [9; 5]%Z /\ mh_into_sorted_vec zheap (top_k zheap 0 [5; 2]%Z) = [] /\
  merge_all heap3 [[1; 4; 7]; []; [2; 4; 4]; [0]]%Z = Ok [0; 1; 2; 4; 4; 4; 7]%Z /\
  medians Z.leb lows_heap zheap [5; 2; 9; 2; -1]%Z = Ok [5; 2; 5; 2; 2]%Z.
Proof. split_and!; [apply zheap_contract|apply heap3_contract|apply lows_contract|..]; vm_compute; reflexivity. Qed.
