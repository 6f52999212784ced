(** Property theorems for src/string/kmp.rs and src/string/z_algorithm.rs (C15, C16). *)
From Verif Require Import Prelude PrefixModel PrefixSpec PrefixProof.

(** C15: kmp never panics, always terminates and gives the prefix function. *)
Theorem C15_kmp {T} (eqb : T -> T -> bool) (Heq : forall a b, eqb a b = true <-> a = b) (s : list T) :
  exists pi, kmp eqb s = Ok pi /\ prefix_function s pi.
Proof. apply kmp_ok. exact Heq. Qed.
Print Assumptions C15_kmp.

Example C15_kmp_nonvacuous : kmp Nat.eqb [1;2;1;2;3;1;2;1;2;1] = Ok [0;0;1;2;0;1;2;3;4;3].
Proof. vm_compute. reflexivity. Qed.

(** C16: z_function never panics, always terminates and gives the Z array. *)
Theorem C16_z_function {T} (eqb : T -> T -> bool) (Heq : forall a b, eqb a b = true <-> a = b) (s : list T) :
  exists z, z_function eqb s = Ok z /\ z_array s z.
Proof. apply z_ok. exact Heq. Qed.
Print Assumptions C16_z_function.

Example C16_z_function_nonvacuous : z_function Nat.eqb [1;1;2;1;1;2;1;1;1] = Ok [0;1;0;5;1;0;2;2;1].
Proof. vm_compute. reflexivity. Qed.
