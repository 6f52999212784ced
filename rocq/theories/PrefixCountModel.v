(** src/string/kmp.rs and src/string/z_algorithm.rs again, with a counter of the calls of PartialEq::eq / ne on elements. *)
From Verif Require Import Prelude.

Section Prefix.
  Context {T : Type} (eqb : T -> T -> bool).

  (** kmp.rs:6-8  while j > 0 && s[i] != s[j] { j = pi[j - 1]; }; state (j, comparisons so far) *)
  Definition kmp_back_count (s : list T) (pi : list nat) (i : nat) (st : nat * nat) : res ((nat * nat) + (nat * nat)) :=
    let '(j, c) := st in
    if j =? 0 then Ok (inr (j, c))
    else
      a ← vget s i; b ← vget s j;
      let c := c + 1 in
      if negb (eqb a b) then j' ← vget pi (j - 1); Ok (inl (j', c)) else Ok (inr (j, c)).

  (** kmp.rs:4-13  body of the `for i in 1..n` loop *)
  Definition kmp_body_count (s : list T) (i : nat) (st : list nat * nat) : res (list nat * nat) :=
    let '(pi, c) := st in
    j ← vget pi (i - 1);
    '(j, c) ← rloop (length s + 1) (kmp_back_count s pi i) (j, c);
    a ← vget s i; b ← vget s j;
    let c := c + 1 in
    let j := if eqb a b then j + 1 else j in
    pi ← vset pi i j;
    Ok (pi, c).

  (** kmp.rs:1-15  kmp, with the number of comparisons *)
  Definition kmp_count (s : list T) : res (list nat * nat) :=
    let n := length s in
    rfor (range 1 n) (kmp_body_count s) (replicate n 0, 0).

  (** z_algorithm.rs:9-11  while i + z[i] < n && s[z[i]] == s[i + z[i]] { z[i] += 1; } *)
  Definition z_extend_count (s : list T) (i : nat) (st : list nat * nat) : res ((list nat * nat) + (list nat * nat)) :=
    let '(z, c) := st in
    zi ← vget z i;
    if i + zi <? length s then
      a ← vget s zi; b ← vget s (i + zi);
      let c := c + 1 in
      if eqb a b then z ← vset z i (zi + 1); Ok (inl (z, c)) else Ok (inr (z, c))
    else Ok (inr (z, c)).

  (** z_algorithm.rs:5-16  body of the `for i in 1..n` loop; state (z, l, r, comparisons so far) *)
  Definition z_body_count (s : list T) (i : nat) (st : list nat * nat * nat * nat) : res (list nat * nat * nat * nat) :=
    let '(z, l, r, c) := st in
    z ← (if i <=? r then x ← vget z (i - l); vset z i (Nat.min (r - i + 1) x) else Ok z);
    '(z, c) ← rloop (length s + 1) (z_extend_count s i) (z, c);
    zi ← vget z i;
    if r <? i + zi - 1 then Ok (z, i, i + zi - 1, c) else Ok (z, l, r, c).

  (** z_algorithm.rs:1-18  z_function, with the number of comparisons *)
  Definition z_function_count (s : list T) : res (list nat * nat) :=
    let n := length s in
    st ← rfor (range 1 n) (z_body_count s) (replicate n 0, 0, 0, 0);
    let '(z, _, _, c) := st in
    Ok (z, c).
End Prefix.
