(** C156: sections of a list and their greatest values, with Segtree. *)
From Verif Require Import Prelude ArraySpec SegtreeModel SpanModel SpanSpec SpanProof.
Close Scope Z_scope.

(** For positive values the client finds for every i the widest section in which v[i] is the leftmost greatest value, and the sum of the greatest values of all sections. *)
Theorem C156_spans : forall v, (Z.of_nat (length v) < 2 ^ 32)%Z -> Forall (fun x => 0 < x) v ->
  exists out, spans v = Ok (out, sum_of_maxima v) /\ length out = length v /\ forall i l r, out !! i = Some (l, r) -> span v i l r.
Proof. exact spans_ok. Qed.
Print Assumptions C156_spans.

(** A value equal to the identity of the maximum makes the client panic: min_left rejects the strict test. *)
Theorem C156_identity : forall v i, (Z.of_nat (length v) < 2 ^ 32)%Z -> v !! i = Some 0 -> spans v = Panic.
Proof. exact spans_zero. Qed.
Print Assumptions C156_identity.

Example C156_nonvacuous : let v := [2; 5; 1; 5; 3] in (Z.of_nat (length v) < 2 ^ 32)%Z /\ Forall (fun x => 0 < x) v /\
  spans v = Ok ([(0, 1); (0, 5); (2, 3); (2, 5); (4, 5)], 66) /\ sum_of_maxima v = 66 /\ spans [2; 0; 3] = Panic.
Proof. cbn zeta. split; [cbn; lia|]. split; [repeat constructor|]. vm_compute. auto. Qed.
