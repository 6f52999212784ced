(** Permutations in the order of the dictionary. *)
From Verif Require Import Prelude.

(** q comes before p *)
Fixpoint lex (q p : list nat) : Prop :=
  match q, p with
  | y :: q, x :: p => y < x \/ y = x /\ lex q p
  | _, _ => False
  end.
(** For every place, the number of smaller entries after it *)
Fixpoint lehmer (p : list nat) : list nat := match p with [] => [] | x :: p => length (filter (fun y => y < x) p) :: lehmer p end.
