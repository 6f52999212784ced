(** Binary prefix codes; no reference to the model. *)
From Coq Require Import Sorting.Sorted.
From Verif Require Import Prelude.
Open Scope Z_scope.

(** A code gives each letter, with the number of times it occurs, a word; no word is a prefix of another letter's. *)
Definition prefix_code (l : list (Z * list bool)) : Prop := ForallOrdPairs (fun x y => ~ x.2 `prefix_of` y.2 /\ ~ y.2 `prefix_of` x.2) l.
(** The number of bits of the whole message. *)
Definition bits (l : list (Z * list bool)) : Z := foldr Z.add 0 (map (fun x => x.1 * Z.of_nat (length x.2)) l).
(** c is the least number of bits with which letters that occur ws times can be written. *)
Definition shortest (ws : list Z) (c : Z) : Prop :=
  (exists l, prefix_code l /\ map fst l = ws /\ bits l = c) /\ forall l, prefix_code l -> map fst l = ws -> c <= bits l.
Close Scope Z_scope.
