(** Steps of AhoCorasick. *)
From Verif Require Import Prelude Eff.

(** The counting program m returns what the program r returns; after the result a the counter has gone up by exactly c a. *)
Definition costs {A} (m : eff nat A) (r : res A) (c : A -> nat) : Prop :=
  forall w, m w = (a ← r; Ok (a, w + c a)).

(** ps lists every non-empty prefix of an inserted string once. *)
Definition prefixes_once (ins : list (list nat * nat)) (ps : list (list nat)) : Prop :=
  NoDup ps /\ forall s, s ∈ ps <-> s <> [] /\ exists x, x ∈ ins /\ s `prefix_of` x.1.
