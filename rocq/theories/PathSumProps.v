(** Sums along the paths of a tree with FenwickTree and BinaryLifting (C142). *)
From Verif Require Import Prelude ArraySpec TreeSpec TreeProof HldSpec LiftModel LiftProps FenwickModel EulerProof PathSumModel PathSumSpec PathSumProof.
From Coq Require Import Ring_theory ZArith.

(** Over any commutative ring, every history of additions to a vertex, reads, sums from the root and sums between two vertices answers, and
    panics, as values kept by vertex and added up along the path of the tree. *)
Theorem C142_path_sum : forall {T} (zero one : T) add mul sub opp, ring_theory zero one add mul sub opp (@eq T) ->
  forall g root, is_tree g -> root < length g -> (Z.of_nat (length g) < 2 ^ 64)%Z ->
  exists b path, bl_from g root = Ok b /\ (forall u v, u < length g -> v < length g -> is_path g u v (path u v)) /\
    forall ops, fmap snd (run (ps_step zero add sub opp b) (ps_new zero (length g)) ops) = fmap snd (run (ps_spec zero add root path) (replicate (length g) zero) ops).
Proof.
  intros T zero one add mul sub opp R g root Tr Hr Hn. destruct (from_tour g root Tr Hr Hn) as (b & l & Eb & To). destruct (paths_exist g Tr) as [path HP]. exists b, path. split; [exact Eb|]. split; [exact HP|].
  intros ops. apply (ps_run_ok zero one add mul sub opp R g root Tr Hr Hn b l Eb To path HP). eapply ps_new_inv; eassumption.
Qed.
Print Assumptions C142_path_sum.

Example C142_nonvacuous : is_tree ex_tree /\ length ex_tree = 7 /\ ring_theory 0%Z 1%Z Z.add Z.mul Z.sub Z.opp eq /\
  (b ← bl_from ex_tree 3; fmap snd (run (ps_step 0%Z Z.add Z.sub Z.opp b) (ps_new 0%Z 7)
    [PsAdd 3 1%Z; PsAdd 2 10%Z; PsAdd 0 100%Z; PsAdd 1 1000%Z; PsAdd 4 5%Z; PsAdd 6 7%Z; PsRoot 1; PsPath 1 6; PsPath 6 5; PsGet 4; PsAdd 2 (-9)%Z; PsPath 1 6]))
    = Ok [None; None; None; None; None; None; Some 1111%Z; Some 1122%Z; Some 12%Z; Some 5%Z; None; Some 1113%Z] /\
  (b ← bl_from ex_tree 3; fmap snd (run (ps_step 0%Z Z.add Z.sub Z.opp b) (ps_new 0%Z 7) [PsPath 7 0])) = Panic.
Proof. split; [exact ex_tree_ok|]. split; [reflexivity|]. split; [exact InitialRing.Zth|]. vm_compute. split_and!; reflexivity. Qed.
