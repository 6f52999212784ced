(** Client code over internal_math.rs: exchanging keys and messages, powers and roots modulo a prime.  Not code of /repo; it calls the
    modelled functions of IMathModel.v.  All numbers are i64 unless said otherwise. *)
From Verif Require Import Prelude IntModel IMathModel.
Open Scope Z_scope.

(** let phi = (p - 1) * (q - 1); let (g, d) = inv_gcd(e, phi); if g == 1 { Some(d) } else { None } *)
Definition rsa_key (p q e : Z) : res (option Z) :=
  p1 ← isub i64 p 1;
  q1 ← isub i64 q 1;
  phi ← imul i64 p1 q1;
  '(g, d) ← inv_gcd e phi;
  Ok (if g =? 1 then Some d else None).

(** Two parties with secrets a and b: let g = primitive_root(p); each sends pow_mod(g, secret, p) and raises what it gets to its secret *)
Definition exchange (p a b : Z) : res (Z * Z) :=
  g ← primitive_root p;
  ga ← pow_mod g a p;
  gb ← pow_mod g b p;
  s ← pow_mod gb a p;
  t ← pow_mod ga b p;
  Ok (s, t).

(** Sending w to the holder of the secret of h, with the random number k: (pow_mod(g, k, p), w * pow_mod(h, k, p) % p) *)
Definition seal (p g h k w : Z) : res (Z * Z) :=
  c ← pow_mod g k p;
  s ← pow_mod h k p;
  v ← imul i64 w s;
  v ← irem i64 v p;
  Ok (c, v).
(** let s = pow_mod(c, x, p); let (_, i) = inv_gcd(s, p); v * i % p *)
Definition unseal (p x : Z) (cv : Z * Z) : res Z :=
  let (c, v) := cv in
  s ← pow_mod c x p;
  '(_, i) ← inv_gcd s p;
  w ← imul i64 v i;
  irem i64 w p.

(** if safe_mod(a, p) == 0 { return true; } let (g, _) = inv_gcd(k, p - 1); pow_mod(a, (p - 1) / g, p) == 1 *)
Definition is_power (p k a : Z) : res bool :=
  r ← safe_mod a p;
  if r =? 0 then Ok true
  else
    n ← isub i64 p 1;
    '(g, _) ← inv_gcd k n;
    h ← idiv i64 n g;
    v ← pow_mod a h p;
    Ok (v =? 1).

(** let (g, d) = inv_gcd(k, p - 1); if g == 1 { Some(pow_mod(a, d, p)) } else { None } *)
Definition kth_root (p k a : Z) : res (option Z) :=
  n ← isub i64 p 1;
  '(g, d) ← inv_gcd k n;
  if g =? 1 then x ← pow_mod a d p; Ok (Some x) else Ok None.

(** For p % 4 == 3: let s = pow_mod(a, (p + 1) / 4, p); if s * s % p == safe_mod(a, p) { Some(s) } else { None } *)
Definition sqrt_mod (p a : Z) : res (option Z) :=
  n ← iadd i64 p 1;
  n ← idiv i64 n 4;
  s ← pow_mod a n p;
  q ← imul i64 s s;
  q ← irem i64 q p;
  r ← safe_mod a p;
  Ok (if q =? r then Some s else None).
Close Scope Z_scope.
