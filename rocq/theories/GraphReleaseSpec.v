(** What Dinic answers and what Dijkstra computes when arithmetic wraps. *)
From Verif Require Import Prelude IntModel DinicModel DinicSpec DijkstraSpec.
Open Scope Z_scope.

(** Allowed answers of a history on n vertices with wrapping answers of type T: as dn_allowed, but the most that can still be sent
    is reported modulo 2^bits, and never causes a panic. *)
Inductive dn_wraps (T : ity) (n : nat) : list fedge -> list Z -> list dn_op -> res (list (option Z)) -> Prop :=
| dw_nil es fs : dn_wraps T n es fs [] (Ok [])
| dw_edge es fs u v c ops r : (u < n)%nat -> (v < n)%nat -> dn_wraps T n (es ++ [(u, v, c)]) (fs ++ [0]) ops r ->
    dn_wraps T n es fs (DnEdge u v c :: ops) (cons None <$> r)
| dw_bad_edge es fs u v c ops : ~ ((u < n)%nat /\ (v < n)%nat) -> dn_wraps T n es fs (DnEdge u v c :: ops) Panic
| dw_flow es fs fs' s t v a ops r : (s < n)%nat -> (t < n)%nat -> s <> t ->
    reroute es s t fs fs' v -> (forall fs'' v', reroute es s t fs fs'' v' -> v' <= v) ->
    it_min T <= a <= it_max T -> (2 ^ it_bits T | a - v) ->
    dn_wraps T n es fs' ops r -> dn_wraps T n es fs (DnFlow s t :: ops) (cons (Some a) <$> r)
| dw_same es fs s ops r : (s < n)%nat -> dn_wraps T n es fs ops r -> dn_wraps T n es fs (DnFlow s s :: ops) (cons (Some 0) <$> r)
| dw_bad_flow es fs s t ops : ~ ((s < n)%nat /\ (t < n)%nat) -> dn_wraps T n es fs (DnFlow s t :: ops) Panic.

(** The distances computed with addition modulo 2^64: 0 at s; each entry is the weight, modulo 2^64, of a walk from s; the vertices
    with an entry are those reachable from s; and no edge, with its addition wrapped, improves an entry. *)
Definition wrapped_distances (g : list (list (nat * Z))) (s : nat) (dis : list (option Z)) : Prop :=
  length dis = length g /\
  dis !! s = Some (Some 0) /\
  (forall v d, dis !! v = Some (Some d) -> 0 <= d < 2 ^ 64 /\ exists w, walk g s v w /\ d = w mod 2 ^ 64) /\
  (forall v w, walk g s v w -> exists d, dis !! v = Some (Some d)) /\
  (forall u d es v c, dis !! u = Some (Some d) -> g !! u = Some es -> (v, c) ∈ es ->
     exists d', dis !! v = Some (Some d') /\ d' <= (d + c) mod 2 ^ 64).
Close Scope Z_scope.
