(** Range additions and range sums with two FenwickTrees (C132). *)
From Verif Require Import Prelude ArraySpec FenwickSpec FenwickModel RangeAddModel RangeAddSpec RangeAddProof.
From Coq Require Import Ring_theory ZArith.

(** C132: over any commutative ring, every history of range additions, range sums and reads gives the answers of the plain array; reading out of range panics. *)
Theorem C132_range_add : forall {T} (zero one : T) add mul sub opp num, ring_theory zero one add mul sub opp (@eq T) -> num 0 = zero -> (forall n, num (S n) = add (num n) one) ->
  forall n ops, Forall (ra_legal n) ops ->
  fmap snd (run (ra_step zero add mul sub opp num) (ra_new zero n) ops) = fmap snd (run (ra_spec zero add) (replicate n zero) ops).
Proof.
  intros T zero one add mul sub opp num R H0 HS n ops Hops. apply (ra_run_ok zero one add mul sub opp num R H0 HS); [apply (ra_new_inv zero one add mul sub opp num R)|]. rewrite replicate_length. exact Hops.
Qed.
Print Assumptions C132_range_add.
Example C132_nonvacuous : ring_theory 0%Z 1%Z Z.add Z.mul Z.sub Z.opp eq /\ (forall n, Z.of_nat (S n) = (Z.of_nat n + 1)%Z) /\
  fmap snd (run (ra_step 0%Z Z.add Z.mul Z.sub Z.opp Z.of_nat) (ra_new 0%Z 5) [RaAdd 1 4 7%Z; RaAdd 3 5 (-2)%Z; RaSum 2 5; RaGet 3; RaAdd 2 2 9%Z; RaSum 0 5]) = Ok [None; None; Some 10%Z; Some 5%Z; None; Some 17%Z].
Proof. split; [exact InitialRing.Zth|]. split; [lia|]. vm_compute. reflexivity. Qed.
