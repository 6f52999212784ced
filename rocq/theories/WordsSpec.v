(** Occurrences, periods and powers of words; no reference to the algorithms. *)
From Verif Require Import Prelude.

(** p starts at position i of t; p ends at position i of t (its last letter is t[i]). *)
Definition starts_at {T} (t p : list T) (i : nat) : Prop := i <= length t /\ p `prefix_of` drop i t.
Definition stops_at {T} (t p : list T) (i : nat) : Prop := i < length t /\ p `suffix_of` take (i + 1) t.

(** d is a period of s. *)
Definition period {T} (s : list T) (d : nat) : Prop := 0 < d /\ forall i, i + d < length s -> s !! i = s !! (i + d).

(** s is w repeated k times. *)
Definition power {T} (s w : list T) (k : nat) : Prop := s = concat (replicate k w).

(** The values met by the loop `while j > 0 { j = pi[j - 1] }` started at k, k and the final 0 included. *)
Fixpoint follow (fuel : nat) (pi : list nat) (k : nat) : list nat :=
  match fuel with
  | O => []
  | S fuel => k :: match k with O => [] | S k' => match pi !! k' with Some x => follow fuel pi x | None => [] end end
  end.
