(** Exclusive references (`&mut`) to one place, over time. *)
From Verif Require Import Prelude.

(** A reference to the place is made; the last reference made that is still in use goes out of use. *)
Inductive bevent := Taken | Dropped.
Global Instance bevent_eq_dec : EqDecision bevent.
Proof. solve_decision. Defined.

(** The references in use after a log of such events. *)
Fixpoint in_use_from (n : nat) (log : list bevent) : nat :=
  match log with
  | [] => n
  | Taken :: log => in_use_from (S n) log
  | Dropped :: log => in_use_from (n - 1) log
  end.
Definition in_use (log : list bevent) : nat := in_use_from 0 log.
(** At some time d references are in use.  Rust forbids two exclusive references to the same bytes in use at once. *)
Definition at_once (d : nat) (log : list bevent) : Prop := exists now later, log = now ++ later /\ d <= in_use now.
