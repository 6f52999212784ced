(** Paths in a network, as lists of edge numbers. *)
From Verif Require Import Prelude DinicSpec.
Open Scope Z_scope.

(** The edges numbered by p lead from x to y. *)
Fixpoint trail (es : list fedge) (x y : nat) (p : list nat) : Prop :=
  match p with
  | [] => x = y
  | i :: p => exists w c, es !! i = Some (x, w, c) /\ trail es w y p
  end.

(** Paths from s to t that together use no edge more often than its capacity. *)
Definition packing (es : list fedge) (s t : nat) (ps : list (list nat)) : Prop :=
  Forall (trail es s t) ps /\
  forall i u v c, es !! i = Some (u, v, c) -> Z.of_nat (count_occ Nat.eq_dec (concat ps) i) <= c.

(** Every path from s to t uses an edge of C; the sum of the capacities of C. *)
Definition separates (es : list fedge) (s t : nat) (C : list nat) : Prop := forall p, trail es s t p -> exists i, i ∈ p /\ i ∈ C.
Fixpoint capacity (es : list fedge) (C : list nat) : Z :=
  match C with [] => 0 | i :: C => match es !! i with Some e => e.2 | None => 0 end + capacity es C end.
Close Scope Z_scope.
