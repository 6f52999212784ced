(** Palindromes, rotations and substrings; no reference to the algorithms. *)
From Verif Require Import Prelude.

Definition palindrome {T} (s : list T) : Prop := rev s = s.
Definition rotation {T} (s t : list T) : Prop := exists a b, s = a ++ b /\ t = b ++ a.
Definition substring {T} (w s : list T) : Prop := exists a b, s = a ++ w ++ b.
