(** Number-theoretic specifications for src/math/internal_math.rs; no reference to the model. *)
From Coq Require Import ZArith Znumtheory.
Open Scope Z_scope.

(** r is the remainder of x modulo m. *)
Definition mod_of (x m r : Z) : Prop := 0 <= r < m /\ (m | x - r).

(** n passes the strong probable-prime test to base a:
    with n - 1 = 2^s d, d odd, either a^d = 1 or a^(2^r d) = -1 (mod n) for some r < s. *)
Definition sprp (n a : Z) : Prop :=
  exists s d, 0 <= s /\ Z.odd d = true /\ 0 < d /\ n - 1 = 2 ^ s * d /\
    ((n | a ^ d - 1) \/ exists r, 0 <= r < s /\ (n | a ^ (2 ^ r * d) + 1)).

(** The documented result of inv_gcd. *)
Definition inv_gcd_post (a b g x : Z) : Prop :=
  g = Z.gcd a b /\ (b | a * x - g) /\ 0 <= x < b / g.

(** g generates the multiplicative group modulo m. *)
Definition generator (m g : Z) : Prop :=
  forall x, 1 <= x < m -> exists k, 0 <= k /\ mod_of (g ^ k) m x.

(** g is the least generator in 1..m-1. *)
Definition least_generator (m g : Z) : Prop :=
  1 <= g < m /\ generator m g /\ forall h, 1 <= h < g -> ~ generator m h.
Close Scope Z_scope.
