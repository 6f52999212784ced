(** Property theorems for multisets, inversions and increasing subsequences on FenwickTree and Segtree (C118). *)
From Coq Require Import Sorting.Sorted.
From Verif Require Import Prelude ArraySpec FenwickModel FenwickSpec FenwickProof TallyModel TallySpec TallyProof.

(** A FenwickTree of counts is a multiset of numbers below n: any legal history of insertions, removals, ranks and k-th smallest queries
    answers as the bag does. *)
Theorem C118_multiset n ops : 0 < n -> (Z.of_nat n < 2 ^ 64)%Z -> tally_legal n [] ops ->
  exists t outs, run tally_step (fw_new 0%Z n) ops = Ok (t, outs) /\ tally_spec n [] ops outs.
Proof.
  intros H0 Hn H. apply tally_run; [exact Hn|exact H0|constructor| |exact H]. rewrite tally_nil. apply fw_new_inv. exact zsum_laws.
Qed.
Print Assumptions C118_multiset.
Example C118_multiset_nonvacuous :
  tally_legal 6 [] [TInsert 4; TInsert 2; TInsert 4; TKth 1; TRank 4; TRemove 4; TKth 1; TKth 2; TRank 6] /\
  (t ← run tally_step (fw_new 0%Z 6) [TInsert 4; TInsert 2; TInsert 4; TKth 1; TRank 4; TRemove 4; TKth 1; TKth 2; TRank 6]; Ok (snd t)) =
  Ok [TUnit; TUnit; TUnit; TIndex 4; TCount 1; TUnit; TIndex 4; TIndex 6; TCount 2].
Proof.
  split; [|vm_compute; reflexivity]. do 5 (constructor; try lia). apply (tl_remove _ _ [2; 4]); [reflexivity|]. repeat (constructor; try lia).
Qed.

(** Adding i - pref(x + 1) for every element counts the pairs that are out of order; equal elements do not count. *)
Theorem C118_inversions n a : Forall (fun x => x < n) a -> count_inversions n a = Ok (Z.of_nat (inversions a)).
Proof. apply inversions_ok. Qed.
Print Assumptions C118_inversions.
Example C118_inversions_nonvacuous : Forall (fun x => x < 6) [3; 5; 1; 3; 0] /\ count_inversions 6 [3; 5; 1; 3; 0] = Ok 7%Z /\ inversions [3; 5; 1; 3; 0] = 7.
Proof. split; [repeat (constructor; try lia)|]. split; vm_compute; reflexivity. Qed.

(** Prefix maxima of a Segtree compute the length of a longest strictly increasing subsequence. *)
Theorem C118_increasing n a : (Z.of_nat n < 2 ^ 32)%Z -> Forall (fun x => x < n) a -> exists L, lis n a = Ok L /\ longest_increasing a L.
Proof. apply lis_ok. Qed.
Print Assumptions C118_increasing.
Example C118_increasing_nonvacuous : Forall (fun x => x < 10) [3; 1; 4; 1; 5; 9; 2; 6; 5] /\ lis 10 [3; 1; 4; 1; 5; 9; 2; 6; 5] = Ok 4.
Proof. split; [repeat (constructor; try lia)|vm_compute; reflexivity]. Qed.
