(** Connectivity by undirected edges. *)
From stdpp Require Import relations.
From Verif Require Import Prelude.

(** u and v are joined by edges of es, in either direction. *)
Definition conn (es : list (nat * nat)) : nat -> nat -> Prop := rtc (fun a b => (a, b) ∈ es \/ (b, a) ∈ es).

(** The edges for which the answer was true. *)
Definition chosen {A} (es : list A) (bs : list bool) : list A := map fst (filter (fun p => p.2 = true) (zip es bs)).

(** The total weight of edges (u, v, w). *)
Definition weight (es : list (nat * nat * Z)) : Z := foldr Z.add 0%Z (map snd es).
