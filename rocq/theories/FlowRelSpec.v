(** Related networks. *)
From Verif Require Import Prelude IntModel DinicSpec.
Open Scope Z_scope.

(** A network on n vertices with capacities of type T. *)
Definition network (T : ity) (n : nat) (es : list fedge) : Prop :=
  Forall (fun x => (x.1.1 < n)%nat /\ (x.1.2 < n)%nat /\ 0 <= x.2 <= it_max T) es.

(** All edges turned round; all capacities multiplied by k; vertices renamed by p. *)
Definition turned (es : list fedge) : list fedge := map (fun e => (e.1.2, e.1.1, e.2)) es.
Definition scaled (k : Z) (es : list fedge) : list fedge := map (fun e => (e.1.1, e.1.2, k * e.2)) es.
Definition renamed (p : nat -> nat) (es : list fedge) : list fedge := map (fun e => (p e.1.1, p e.1.2, e.2)) es.

(** An edge that cannot help a flow from s to t: it enters s, leaves t, is a loop, or has no capacity. *)
Definition useless (s t : nat) (e : fedge) : Prop := e.1.2 = s \/ e.1.1 = t \/ e.1.1 = e.1.2 \/ e.2 = 0.
Global Instance useless_dec s t e : Decision (useless s t e).
Proof. unfold useless. apply _. Defined.
Close Scope Z_scope.
