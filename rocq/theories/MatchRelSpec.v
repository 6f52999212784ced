(** Related bipartite graphs. *)
From Verif Require Import Prelude.

(** Left ends below n, right ends below m *)
Definition fits (n m : nat) (E : list (nat * nat)) : Prop := forall u v, (u, v) ∈ E -> u < n /\ v < m.
(** The same graph read from the other side *)
Definition swapped (E : list (nat * nat)) : list (nat * nat) := map (fun e => (e.2, e.1)) E.
(** Vertices renamed *)
Definition renamed (f g : nat -> nat) (E : list (nat * nat)) : list (nat * nat) := map (fun e => (f e.1, g e.2)) E.
(** The entries that are occupied in l are occupied in l'. *)
Definition stays {A} (l l' : list (option A)) : Prop := forall u x, l !! u = Some (Some x) -> exists y, l' !! u = Some (Some y).
