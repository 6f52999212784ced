(** A client of Dinic: is there a circulation with a lower bound on every edge?  Not code of /repo. *)
From Verif Require Import Prelude IntModel DinicModel DinicSpec FlowRelModel.
Open Scope Z_scope.

(** An edge with a lower and an upper bound: (tail, head, (lower, upper)). *)
Notation bedge := (nat * nat * (Z * Z))%type.
(** The edge keeps the room between its bounds; the lower bound is sent from the new vertex n to its head and from its tail
    to the new vertex n + 1. *)
Definition aux_net (n : nat) (ds : list bedge) : list fedge :=
  concat (map (fun d => [(d.1.1, d.1.2, d.2.2 - d.2.1); (n, d.1.2, d.2.1); (d.1.1, S n, d.2.1)]) ds).
Definition low_sum (ds : list bedge) : Z := foldr (fun d a => d.2.1 + a) 0 ds.
(** d.get_max_flow(n, n + 1) == the sum of the lower bounds *)
Definition circulates (T : ity) (n : nat) (ds : list bedge) : res bool :=
  v ← max_flow_of T (n + 2) (aux_net n ds) n (S n);
  Ok (v =? low_sum ds).
(** A flow from s to t of at most m: one more edge, back from t to s. *)
Definition flows (T : ity) (n : nat) (ds : list bedge) (s t : nat) (m : Z) : res bool := circulates T n ((t, s, (0, m)) :: ds).
Close Scope Z_scope.
