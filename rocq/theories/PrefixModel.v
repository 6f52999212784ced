(** Model of src/string/kmp.rs and src/string/z_algorithm.rs.  [eqb] is PartialEq::eq of the element type.
    The `while` loops run on fuel; the theorems show the fuel given is never used up. *)
From Verif Require Import Prelude.

Section Prefix.
  Context {T : Type} (eqb : T -> T -> bool).

  (** kmp.rs:6-8  while j > 0 && s[i] != s[j] { j = pi[j - 1]; } *)
  Definition kmp_back (s : list T) (pi : list nat) (i : nat) (j : nat) : res (nat + nat) :=
    if j =? 0 then Ok (inr j)
    else
      a ← vget s i; b ← vget s j;
      if negb (eqb a b) then j' ← vget pi (j - 1); Ok (inl j') else Ok (inr j).

  (** kmp.rs:4-13  body of the `for i in 1..n` loop *)
  Definition kmp_body (s : list T) (i : nat) (pi : list nat) : res (list nat) :=
    j ← vget pi (i - 1);
    j ← rloop (length s + 1) (kmp_back s pi i) j;
    a ← vget s i; b ← vget s j;
    let j := if eqb a b then j + 1 else j in
    vset pi i j.

  (** kmp.rs:1-15  kmp *)
  Definition kmp (s : list T) : res (list nat) :=
    let n := length s in
    rfor (range 1 n) (kmp_body s) (replicate n 0).

  (** z_algorithm.rs:9-11  while i + z[i] < n && s[z[i]] == s[i + z[i]] { z[i] += 1; } *)
  Definition z_extend (s : list T) (i : nat) (z : list nat) : res (list nat + list nat) :=
    zi ← vget z i;
    if i + zi <? length s then
      a ← vget s zi; b ← vget s (i + zi);
      if eqb a b then z ← vset z i (zi + 1); Ok (inl z) else Ok (inr z)
    else Ok (inr z).

  (** z_algorithm.rs:5-16  body of the `for i in 1..n` loop; state (z, l, r) *)
  Definition z_body (s : list T) (i : nat) (st : list nat * nat * nat) : res (list nat * nat * nat) :=
    let '(z, l, r) := st in
    z ← (if i <=? r then x ← vget z (i - l); vset z i (Nat.min (r - i + 1) x) else Ok z);
    z ← rloop (length s + 1) (z_extend s i) z;
    zi ← vget z i;
    if r <? i + zi - 1 then Ok (z, i, i + zi - 1) else Ok (z, l, r).

  (** z_algorithm.rs:1-18  z_function *)
  Definition z_function (s : list T) : res (list nat) :=
    let n := length s in
    st ← rfor (range 1 n) (z_body s) (replicate n 0, 0, 0);
    Ok (st.1.1).
End Prefix.
