(** C153: how many different values a section of a list holds, with FenwickTree. *)
From Verif Require Import Prelude FenwickModel DistinctModel DistinctSpec DistinctProof.
Close Scope Z_scope.

(** For a list a of values below m and, for every place i, a list qs[i] of left ends: the sweep does not panic and its answer for l in qs[i] is the number of different values among a[l], ..., a[i]. *)
Theorem C153_distinct : forall m a qs, Forall (fun x => x < m) a -> length qs = length a -> Forall (Forall (fun l => l <= length a)) qs ->
  exists out, distinct_sweep m a qs = Ok out /\ length out = length a /\
    forall i ls r, qs !! i = Some ls -> out !! i = Some r -> Forall2 (fun l z => exists k, z = Z.of_nat k /\ distinct (drop l (take (S i) a)) k) ls r.
Proof. exact sweep_ok. Qed.
Print Assumptions C153_distinct.

Example C153_nonvacuous : let a := [2; 0; 2; 2; 1] in let qs := [[0]; []; [0; 1; 2; 3]; [2]; [0; 3; 5]] in
  Forall (fun x => x < 3) a /\ length qs = length a /\ Forall (Forall (fun l => l <= length a)) qs /\
  distinct_sweep 3 a qs = Ok [[1]; []; [2; 2; 1; 0]; [1]; [3; 2; 0]]%Z.
Proof. cbn zeta. split_and!; [repeat constructor|reflexivity|repeat constructor|vm_compute; reflexivity]. Qed.
