(** Linear congruences. *)
From Verif Require Import Prelude.
Open Scope Z_scope.

(** [x] solves every  a[i] * x = b[i] (mod m[i]). *)
Definition solves (a b m : list Z) (x : Z) : Prop :=
  forall i ai bi mi, a !! i = Some ai -> b !! i = Some bi -> m !! i = Some mi -> (mi | ai * x - bi).

(** What ex_crt promises: (x, l) describes exactly the set of solutions, or there is none. *)
Definition crt_answer (a b m : list Z) (o : option (Z * Z)) : Prop :=
  match o with
  | Some (x, l) => 0 <= x < l /\ forall y, solves a b m y <-> (l | y - x)
  | None => forall y, ~ solves a b m y
  end.

(** The same without a normal form for x and the sign of l. *)
Definition crt_solutions (a b m : list Z) (o : option (Z * Z)) : Prop :=
  match o with
  | Some (x, l) => Z.abs x < Z.abs l /\ forall y, solves a b m y <-> (l | y - x)
  | None => forall y, ~ solves a b m y
  end.
Close Scope Z_scope.
