(** Keys, sealed messages, powers and roots with pow_mod, inv_gcd and primitive_root (C144). *)
From Coq Require Import Znumtheory.
From Verif Require Import Prelude IntModel IMathModel IMathSpec IMathProof IMathRoot CryptModel CryptSpec CryptProof.
Open Scope Z_scope.

(** For two primes whose product n is an i32, the exponent found by inv_gcd undoes pow_mod with exponent e, in both orders, on every message
    below n; if inv_gcd finds none, pow_mod with exponent e confuses two messages. *)
Theorem C144_rsa : forall p q e, prime p -> prime q -> p <> q -> in_ty i32 (p * q) -> 0 <= e -> in_ty i64 e -> exists k, rsa_key p q e = Ok k /\
  match k with
  | Some d => 0 <= d < (p - 1) * (q - 1) /\
      (forall m, 0 <= m < p * q -> exists c, pow_mod m e (p * q) = Ok c /\ 0 <= c < p * q /\ pow_mod c d (p * q) = Ok m) /\
      (forall m, 0 <= m < p * q -> exists c, pow_mod m d (p * q) = Ok c /\ 0 <= c < p * q /\ pow_mod c e (p * q) = Ok m)
  | None => exists m m', 0 <= m < p * q /\ 0 <= m' < p * q /\ m <> m' /\ pow_mod m e (p * q) = pow_mod m' e (p * q)
  end.
Proof. exact rsa_key_ok. Qed.
Print Assumptions C144_rsa.

(** Both parties of a key exchange get the same number, the primitive root to the product of the secrets. *)
Theorem C144_exchange : forall p a b, prime p -> in_ty i32 p -> 0 <= a -> 0 <= b -> in_ty i64 a -> in_ty i64 b ->
  exists g s, primitive_root p = Ok g /\ exchange p a b = Ok (s, s) /\ mod_of (g ^ (a * b)) p s.
Proof. exact exchange_ok. Qed.
Print Assumptions C144_exchange.

(** A message sealed for the holder of the secret x is recovered with x, whatever the random number k. *)
Theorem C144_seal : forall p g x k w, prime p -> in_ty i32 p -> 1 <= g < p -> 0 <= x -> 0 <= k -> in_ty i64 x -> in_ty i64 k -> 0 <= w < p ->
  exists h cv, pow_mod g x p = Ok h /\ seal p g h k w = Ok cv /\ unseal p x cv = Ok w.
Proof. exact seal_ok. Qed.
Print Assumptions C144_seal.

(** One inv_gcd and one pow_mod decide whether a is a k-th power modulo a prime. *)
Theorem C144_is_power : forall p k a, prime p -> in_ty i32 p -> 1 <= k -> in_ty i64 k -> in_ty i64 a ->
  exists b, is_power p k a = Ok b /\ (b = true <-> exists x, root p k a x).
Proof. exact is_power_ok. Qed.
Print Assumptions C144_is_power.

(** If inv_gcd inverts k modulo p - 1, pow_mod gives the only k-th root; if it does not, some number has two. *)
Theorem C144_root : forall p k a, prime p -> 2 < p -> in_ty i32 p -> 0 <= k -> in_ty i64 k -> in_ty i64 a -> exists o, kth_root p k a = Ok o /\
  match o with
  | Some x => 0 <= x < p /\ root p k a x /\ forall y, 0 <= y < p -> root p k a y -> y = x
  | None => exists c y z, 0 <= y < p /\ 0 <= z < p /\ y <> z /\ root p k c y /\ root p k c z
  end.
Proof. exact kth_root_ok. Qed.
Print Assumptions C144_root.

(** Square roots modulo primes that are 3 modulo 4. *)
Theorem C144_sqrt : forall p a, prime p -> p mod 4 = 3 -> in_ty i32 p -> in_ty i64 a -> exists o, sqrt_mod p a = Ok o /\
  match o with Some s => 0 <= s < p /\ root p 2 a s | None => forall x, ~ root p 2 a x end.
Proof. exact sqrt_mod_ok. Qed.
Print Assumptions C144_sqrt.

Example C144_nonvacuous : prime 7 /\ prime 61 /\ in_ty i32 (7 * 61) /\
  rsa_key 7 61 17 = Ok (Some 233) /\ (c ← pow_mod 123 17 427; pow_mod c 233 427) = Ok 123 /\ rsa_key 7 61 15 = Ok None /\
  exchange 61 10 23 = Ok (14, 14) /\ (h ← pow_mod 2 10 61; cv ← seal 61 2 h 23 44; unseal 61 10 cv) = Ok 44 /\
  is_power 7 3 6 = Ok true /\ is_power 7 3 2 = Ok false /\ is_power 7 3 (-14) = Ok true /\ kth_root 61 7 5 = Ok (Some 39) /\ kth_root 61 3 5 = Ok None /\
  sqrt_mod 7 2 = Ok (Some 4) /\ sqrt_mod 7 3 = Ok None /\
  (* 2 < p is needed: the exponent is 0 for p = 2 *)
  kth_root 2 1 0 = Ok (Some 1).
Proof. split; [exact prime_7|]. split; [exact prime_61|]. split; [rewrite i32_range; lia|]. split_and!; vm_compute; reflexivity. Qed.
Close Scope Z_scope.
