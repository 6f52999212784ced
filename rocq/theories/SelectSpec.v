(** Choosing a set of items. *)
From Verif Require Import Prelude IntModel.
Open Scope Z_scope.

(** Sum of the profits of the items in X, the first being number k. *)
Fixpoint gain (k : nat) (ps : list Z) (X : nat -> bool) : Z :=
  match ps with [] => 0 | p :: ps => (if X k then p else 0) + gain (S k) ps X end.
(** What is paid for items taken without their partner. *)
Fixpoint fine (rs : list (nat * nat * Z)) (X : nat -> bool) : Z :=
  match rs with [] => 0 | r :: rs => (if X r.1.1 && negb (X r.1.2) then r.2 else 0) + fine rs X end.
Definition profit (ps : list Z) (rs : list (nat * nat * Z)) (X : nat -> bool) : Z := gain 0 ps X - fine rs X.
Definition closed (qs : list (nat * nat)) (X : nat -> bool) : Prop := forall u v, (u, v) ∈ qs -> X u = true -> X v = true.
(** Numbers of type T, item numbers below n. *)
Definition profits_ok (T : ity) (ps : list Z) : Prop := Forall (fun p => - it_max T <= p <= it_max T) ps.
Definition pairs_ok (T : ity) (n : nat) (rs : list (nat * nat * Z)) : Prop := Forall (fun r => (r.1.1 < n)%nat /\ (r.1.2 < n)%nat /\ 0 <= r.2 <= it_max T) rs.
Close Scope Z_scope.
