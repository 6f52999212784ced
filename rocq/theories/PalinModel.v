(** Client code over kmp.rs and z_algorithm.rs: palindromes, rotations and distinct substrings.  Not code of /repo; it calls the modelled
    functions of PrefixModel.v. *)
From Verif Require Import Prelude PrefixModel.

Section Palin.
  Context {T : Type} (eqb : T -> T -> bool).

  (** let mut u = s.to_vec(); u.push(c); u.extend(s.iter().rev()); *kmp(&u).last().unwrap() *)
  Definition longest_palin (c : T) (s : list T) : res nat :=
    pi ← kmp eqb (s ++ [c] ++ rev s);
    runwrap (last pi).
  (** s[k..] reversed, then s, where k = longest_palin(c, s) *)
  Definition make_palin (c : T) (s : list T) : res (list T) :=
    k ← longest_palin c s;
    Ok (rev (drop k s) ++ s).
  (** let z = z_function(s + reversed s); (1..=n).filter(|k| z[2 * n - k] >= k) *)
  Definition palin_prefixes (s : list T) : res (list nat) :=
    let n := length s in
    z ← z_function eqb (s ++ rev s);
    rfor (range_incl 1 n) (fun k out => x ← vget z (2 * n - k); Ok (if k <=? x then out ++ [k] else out)) [].
  (** if s.len() != t.len() { return false; } let z = z_function(s + t + t); n == 0 || (0..n).any(|i| z[n + i] >= n) *)
  Definition is_rotation (s t : list T) : res bool :=
    let n := length s in
    if n =? length t then
      z ← z_function eqb (s ++ t ++ t);
      rfor (range 0 n) (fun i b => x ← vget z (n + i); Ok (b || (n <=? x))) (n =? 0)
    else Ok false.
  (** for i in 0..n { let r = s[..=i] reversed; total += i + 1 - z_function(&r).into_iter().max().unwrap_or(0); } *)
  Definition distinct (s : list T) : res nat :=
    rfor (range 0 (length s)) (fun i total => z ← z_function eqb (rev (take (i + 1) s)); Ok (total + (i + 1 - foldr Nat.max 0 z))) 0.
End Palin.
