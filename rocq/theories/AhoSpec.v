(** What a user of AhoCorasick relies on, in terms of the inserted strings only.
    A string is a list of bytes; an insert is a pair of a string and its index. *)
From Verif Require Import Prelude.

Definition in_alphabet (off N : nat) (s : list nat) : Prop := Forall (fun c => off <= c < off + N) s.

(** The suffixes of s, longest first. *)
Fixpoint suffixes (s : list nat) : list (list nat) := s :: match s with [] => [] | _ :: t => suffixes t end.

(** The index given by the last insert of s. *)
Definition last_index (ins : list (list nat * nat)) (s : list nat) : option nat :=
  foldl (fun o (x : list nat * nat) => if decide (x.1 = s) then Some x.2 else o) None ins.

(** The indices of the inserted strings that are suffixes of t, longest first. *)
Definition matches (ins : list (list nat * nat)) (t : list nat) : list nat := omap (last_index ins) (suffixes t).

(** s is the longest suffix of t that is a prefix of an inserted string. *)
Definition longest_live (ins : list (list nat * nat)) (t s : list nat) : Prop :=
  let live s := s = [] \/ exists x, x ∈ ins /\ s `prefix_of` x.1 in
  s `suffix_of` t /\ live s /\ forall s', s' `suffix_of` t -> live s' -> length s' <= length s.

(** The inserts made by from. *)
Definition numbered (patterns : list (list nat)) : list (list nat * nat) := imap (fun i s => (s, i)) patterns.

(** Pattern s ends at position i of the text. *)
Definition ends_at (text : list nat) (s : list nat) (i : nat) : Prop := i < length text /\ s `suffix_of` take (i + 1) text.
