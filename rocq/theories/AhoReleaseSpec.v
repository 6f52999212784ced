(** Bytes and letters in a release build of AhoCorasick, where c - OFFSET wraps. *)
From Verif Require Import Prelude AhoSpec.

Definition bytes (s : list nat) : Prop := Forall (fun c => c < 256) s.
(** The byte c is one of the N letters counted from off, going on at 0 after 255. *)
Definition is_letter (off N c : nat) : Prop := exists k, k < N /\ c = (off + k) mod 256.
Definition letters (off N : nat) (s : list nat) : Prop := Forall (is_letter off N) s.
