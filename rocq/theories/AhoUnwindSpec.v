(** What the caller of AhoCorasick::insert learns from a panic, in terms of the inserted strings only. *)
From Verif Require Import Prelude AhoSpec.

(** The part of s before its first byte outside the alphabet. *)
Fixpoint valid_part (off N : nat) (s : list nat) : list nat :=
  match s with
  | [] => []
  | c :: s => if decide (off <= c < off + N) then c :: valid_part off N s else []
  end.

(** Every insert, rejected ones included, with the part of its string that was read. *)
Definition read_parts (off N : nat) (ins : list (list nat * nat)) : list (list nat * nat) := map (fun x => (valid_part off N x.1, x.2)) ins.
