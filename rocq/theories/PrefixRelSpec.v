(** What kmp and z_function are to compute when `==` need not be reflexive (floats), in terms of positions. *)
From Verif Require Import Prelude.

Section Spec.
  Context {T : Type} (eqb : T -> T -> bool) (s : list T).

  (** The elements at positions i and j exist and compare equal. *)
  Definition same (i j : nat) : Prop := exists a b, s !! i = Some a /\ s !! j = Some b /\ eqb a b = true.

  (** The k elements from position i on equal the first k, one by one. *)
  Definition repeats (i k : nat) : Prop := forall t, t < k -> same t (i + t).

  (** pi[i] is the largest k <= i such that the first k elements equal the k elements that end at position i. *)
  Definition rel_prefix_function (pi : list nat) : Prop :=
    length pi = length s /\
    forall i k, pi !! i = Some k -> k <= i /\ repeats (i + 1 - k) k /\ forall k', k' <= i -> repeats (i + 1 - k') k' -> k' <= k.

  (** z[i] is the largest k such that the first k elements equal the k elements from i on; z[0] = 0. *)
  Definition rel_z_array (z : list nat) : Prop :=
    length z = length s /\
    forall i k, z !! i = Some k -> if i =? 0 then k = 0 else repeats i k /\ forall k', repeats i k' -> k' <= k.
End Spec.
