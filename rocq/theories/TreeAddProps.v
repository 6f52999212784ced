(** Additions to paths and subtrees of a tree with FenwickTree and BinaryLifting (C146). *)
From Verif Require Import Prelude ArraySpec TreeSpec TreeProof HldSpec LiftModel LiftProps FenwickModel EulerProof PathSumProof TreeAddModel TreeAddSpec TreeAddProof.
From Coq Require Import Ring_theory ZArith.

(** Over any commutative ring, every history of additions to all vertices of a path, additions to all vertices of a subtree, and reads of a
    vertex answers, and panics, as values kept by vertex. *)
Theorem C146_tree_add : forall {T} (zero one : T) add mul sub opp, ring_theory zero one add mul sub opp (@eq T) ->
  forall g root, is_tree g -> root < length g -> (Z.of_nat (length g) < 2 ^ 64)%Z ->
  exists b path, bl_from g root = Ok b /\ (forall u v, u < length g -> v < length g -> is_path g u v (path u v)) /\
    forall ops, fmap snd (run (ta_step zero add sub opp b) (ta_new zero (length g)) ops) = fmap snd (run (ta_spec add root path) (replicate (length g) zero) ops).
Proof.
  intros T zero one add mul sub opp R g root Tr Hr Hn. destruct (from_tour g root Tr Hr Hn) as (b & l & Eb & To). destruct (paths_exist g Tr) as [path HP]. exists b, path. split; [exact Eb|]. split; [exact HP|].
  intros ops. apply (ta_run_ok zero one add mul sub opp R g root Tr Hr Hn b l Eb To path HP). eapply ta_new_inv; eassumption.
Qed.
Print Assumptions C146_tree_add.

Example C146_nonvacuous : is_tree ex_tree /\ length ex_tree = 7 /\ ring_theory 0%Z 1%Z Z.add Z.mul Z.sub Z.opp eq /\
  (b ← bl_from ex_tree 3; fmap snd (run (ta_step 0%Z Z.add Z.sub Z.opp b) (ta_new 0%Z 7)
    [TaPath 1 6 1%Z; TaSub 2 10%Z; TaPath 6 5 100%Z; TaPath 3 0 1000%Z; TaGet 0; TaGet 1; TaGet 2; TaGet 3; TaGet 4; TaGet 5; TaGet 6]))
    = Ok [None; None; None; None; Some 1011%Z; Some 11%Z; Some 1011%Z; Some 1000%Z; Some 111%Z; Some 110%Z; Some 111%Z] /\
  (b ← bl_from ex_tree 3; fmap snd (run (ta_step 0%Z Z.add Z.sub Z.opp b) (ta_new 0%Z 7) [TaPath 7 0 1%Z])) = Panic.
Proof. split; [exact ex_tree_ok|]. split; [reflexivity|]. split; [exact InitialRing.Zth|]. vm_compute. split_and!; reflexivity. Qed.
