(** A graph with weights on its edges, as dijkstra reads it. *)
From Verif Require Import Prelude.

Definition weighted (g : list (list nat)) (c : nat -> nat -> nat) : list (list (nat * Z)) :=
  imap (fun u es => map (fun v => (v, Z.of_nat (c u v))) es) g.
