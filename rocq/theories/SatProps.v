(** Property theorems about clients of scc in src/graph/tarjan.rs: 2-SAT and topological sorting (C113). *)
From stdpp Require Import relations.
From Verif Require Import Prelude SccSpec SccModel SccProps SatSpec SatModel SatProof.

(** C113, 2-SAT: with the colours of scc on the implication graph the client finds an assignment that satisfies all clauses, or
    answers None and there is none. *)
Theorem C113_two_sat : forall n cs, (forall a b, (a, b) ∈ cs -> a < 2 * n /\ b < 2 * n) -> (Z.of_nat (2 * n) <= 2 ^ 31 - 1)%Z ->
  (exists f, two_sat n cs = Ok (Some f) /\ length f = n /\ satisfies f cs) \/
  (two_sat n cs = Ok None /\ forall f, length f = n -> ~ satisfies f cs).
Proof. intros n cs L Hn. destruct (two_sat_ok n cs L Hn) as ([f|] & E & H); [left; exists f; auto|right; auto]. Qed.
Print Assumptions C113_two_sat.

(** C113: it always returns or panics, and panics exactly when a literal names no variable or scc cannot number the vertices. *)
Theorem C113_two_sat_panics : forall n cs, two_sat n cs <> Diverge /\
  (two_sat n cs = Panic <-> ~ (forall a b, (a, b) ∈ cs -> a < 2 * n /\ b < 2 * n) \/ (2 ^ 31 <= Z.of_nat (2 * n))%Z).
Proof. exact two_sat_panics. Qed.
Print Assumptions C113_two_sat_panics.

(** C113, topological sorting: reading the vertices by decreasing colour puts the start of every edge before its end, loops aside;
    None exactly when two vertices lie on a common cycle. *)
Theorem C113_topo_sort : forall g, (forall u v, edge g u v -> v < length g) -> (Z.of_nat (length g) <= 2 ^ 31 - 1)%Z ->
  (exists order, topo_sort g = Ok (Some order) /\ order ≡ₚ seq 0 (length g) /\ (forall u v, edge g u v -> u <> v -> before order u v) /\
     (forall u v, reach g u v -> reach g v u -> u = v)) \/
  (topo_sort g = Ok None /\ exists u v, u <> v /\ reach g u v /\ reach g v u).
Proof.
  intros g Hlt Hn. destruct (topo_ok g Hlt Hn) as ([order|] & E & H); [left|right; auto]. destruct H as [H1 H2]. exists order. split_and!; auto.
  apply (before_acyclic g order); auto.
Qed.
Print Assumptions C113_topo_sort.

(** A satisfiable formula with a forced variable, an unsatisfiable one, a graph with a loop but no longer cycle, one with a cycle. *)
Example C113_nonvacuous :
  two_sat 3 [(0, 2); (1, 4); (3, 5); (0, 3); (4, 4)] = Ok (Some [true; false; true]) /\
  satisfies [true; false; true] [(0, 2); (1, 4); (3, 5); (0, 3); (4, 4)] /\
  two_sat 2 [(0, 2); (0, 3); (1, 2); (1, 3)] = Ok None /\ two_sat 2 [(0, 4)] = Panic /\
  topo_sort [[2]; [0; 1]; []; [1; 2]] = Ok (Some [3; 1; 0; 2]) /\ topo_sort [[1]; [2]; [1]] = Ok None.
Proof.
  split; [vm_compute; reflexivity|]. split.
  { intros a b H. repeat (apply elem_of_cons in H as [[= -> ->]|H]; [first [left; vm_compute; reflexivity|right; vm_compute; reflexivity]|]). inversion H. }
  split; [vm_compute; reflexivity|]. split; [vm_compute; reflexivity|]. split; vm_compute; reflexivity.
Qed.
