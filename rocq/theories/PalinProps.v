(** Palindromes, rotations and distinct substrings with kmp and z_function (C143). *)
From Coq Require Import Sorting.Sorted.
From Verif Require Import Prelude PrefixModel PalinModel PalinSpec PalinProof.

(** With a letter c that s does not contain, the last entry of kmp(s c reversed-s) is the length of the longest prefix that is a palindrome. *)
Theorem C143_longest {T} (eqb : T -> T -> bool) (Heq : forall a b, eqb a b = true <-> a = b) : forall c (s : list T), c ∉ s ->
  exists k, longest_palin eqb c s = Ok k /\ k <= length s /\ palindrome (take k s) /\ forall k', k' <= length s -> palindrome (take k' s) -> k' <= k.
Proof. exact (longest_palin_ok eqb Heq). Qed.
Print Assumptions C143_longest.

(** The reversed rest before s makes a shortest palindrome that ends with s. *)
Theorem C143_shortest {T} (eqb : T -> T -> bool) (Heq : forall a b, eqb a b = true <-> a = b) : forall c (s : list T), c ∉ s ->
  exists w, make_palin eqb c s = Ok w /\ palindrome w /\ (exists a, w = a ++ s) /\ forall w', palindrome w' -> (exists a, w' = a ++ s) -> length w <= length w'.
Proof. exact (make_palin_ok eqb Heq). Qed.
Print Assumptions C143_shortest.

(** z_function(s reversed-s) gives the lengths of all prefixes that are palindromes, without another letter. *)
Theorem C143_prefixes {T} (eqb : T -> T -> bool) (Heq : forall a b, eqb a b = true <-> a = b) : forall s : list T,
  exists out, palin_prefixes eqb s = Ok out /\ StronglySorted lt out /\ forall k, k ∈ out <-> 1 <= k <= length s /\ palindrome (take k s).
Proof. exact (palin_prefixes_ok eqb Heq). Qed.
Print Assumptions C143_prefixes.

(** z_function(s t t) decides whether t is a rotation of s. *)
Theorem C143_rotation {T} (eqb : T -> T -> bool) (Heq : forall a b, eqb a b = true <-> a = b) : forall s t : list T,
  exists b, is_rotation eqb s t = Ok b /\ (b = true <-> rotation s t).
Proof. exact (is_rotation_ok eqb Heq). Qed.
Print Assumptions C143_rotation.

(** Adding up, over the prefixes, the length less the largest entry of z_function of the reversed prefix counts the distinct nonempty
    substrings. *)
Theorem C143_distinct {T} (eqb : T -> T -> bool) (Heq : forall a b, eqb a b = true <-> a = b) : forall s : list T,
  exists k subs, distinct eqb s = Ok k /\ length subs = k /\ NoDup subs /\ forall w, w ∈ subs <-> w <> [] /\ substring w s.
Proof. exact (distinct_ok eqb Heq). Qed.
Print Assumptions C143_distinct.

Example C143_nonvacuous : (9 ∉ [1; 2; 1; 1; 2; 3]) /\ longest_palin Nat.eqb 9 [1; 2; 1; 1; 2; 3] = Ok 3 /\
  make_palin Nat.eqb 9 [1; 2; 1; 1; 2; 3] = Ok [3; 2; 1; 1; 2; 1; 1; 2; 3] /\ palin_prefixes Nat.eqb [1; 2; 1; 2; 1; 3] = Ok [1; 3; 5] /\
  is_rotation Nat.eqb [1; 2; 3; 1] [3; 1; 1; 2] = Ok true /\ is_rotation Nat.eqb [1; 2; 3; 1] [3; 1; 2; 1] = Ok false /\ is_rotation Nat.eqb [] [] = Ok true /\
  distinct Nat.eqb [1; 2; 1; 2; 1] = Ok 9.
Proof. split; [rewrite !elem_of_cons, elem_of_nil; lia|]. split_and!; vm_compute; reflexivity. Qed.
