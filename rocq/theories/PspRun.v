(** The searches of PspInt.v run to completion. *)
From Coq Require Import Uint63 List.
From Verif Require Import PspInt PspCert.

Lemma run_case1 : case1 = true.
Proof. vm_compute. reflexivity. Qed.
Lemma run_small : small_ok = true.
Proof. vm_compute. reflexivity. Qed.
Lemma run_certs : certs_ok certs = true.
Proof. vm_compute. reflexivity. Qed.
Lemma run_go : go (has_cert (map cert_k certs)) 1%uint63 1%uint63 small = true.
Proof. vm_compute. reflexivity. Qed.
