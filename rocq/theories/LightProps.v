(** C157: sections of a list with a small sum, with Segtree. *)
From Verif Require Import Prelude ArraySpec SegtreeModel SpanSpec LightModel LightSpec LightProof.
Close Scope Z_scope.

(** The client counts the non-empty sections with sum at most k and finds the greatest length of one (0 if there is none). *)
Theorem C157_light : forall k v, (Z.of_nat (length v) < 2 ^ 32)%Z -> exists m, light k v = Ok (light_count k v, m) /\ light_longest k v m.
Proof. exact light_ok. Qed.
Print Assumptions C157_light.

Example C157_nonvacuous : let v := [3; 1; 0; 4; 9; 2] in (Z.of_nat (length v) < 2 ^ 32)%Z /\ light 5 v = Ok (10, 3) /\ light_count 5 v = 10 /\ light 0 [1; 2] = Ok (0, 0).
Proof. cbn zeta. split; [cbn; lia|]. vm_compute. auto. Qed.
