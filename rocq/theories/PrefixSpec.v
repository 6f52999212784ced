(** What kmp and z_function are to compute, in terms of prefixes and suffixes only. *)
From Verif Require Import Prelude.

(** k is the length of a border of p: a proper prefix that is also a suffix *)
Definition border {T} (p : list T) (k : nat) : Prop :=
  k < length p /\ take k p = drop (length p - k) p.

(** pi is the prefix function of s *)
Definition prefix_function {T} (s : list T) (pi : list nat) : Prop :=
  length pi = length s /\
  forall i k, pi !! i = Some k ->
    border (take (i + 1) s) k /\ forall k', border (take (i + 1) s) k' -> k' <= k.

(** k is the length of the longest common prefix of a and b *)
Definition longest_common_prefix {T} (a b : list T) (k : nat) : Prop :=
  (exists p a' b', a = p ++ a' /\ b = p ++ b' /\ length p = k) /\
  forall p a' b', a = p ++ a' -> b = p ++ b' -> length p <= k.

(** z is the Z array of s, with entry 0 set to 0 *)
Definition z_array {T} (s : list T) (z : list nat) : Prop :=
  length z = length s /\
  forall i k, z !! i = Some k ->
    if i =? 0 then k = 0 else longest_common_prefix s (drop i s) k.
