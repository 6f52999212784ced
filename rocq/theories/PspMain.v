(** The result of the search: a number below 2^31 passing the three strong tests is prime. *)
From Coq Require Import Znumtheory Uint63 List.
From stdpp Require Import prelude.
From Verif Require Import PspMath PspInt PspSound PspLimb PspCert PspRun.
Open Scope Z_scope.

Lemma good_prime n : good n -> prime n.
Proof.
  pose proof (search_sound (has_cert (map cert_k certs))) as S.
  pose proof (certs_sound certs run_certs) as C.
  specialize (S C).
  specialize (S run_case1).
  specialize (S run_small).
  specialize (S run_go).
  exact (S n).
Qed.
