(** Maximum flow after caught panics. *)
From Verif Require Import Prelude IntModel DinicModel DinicSpec.
Open Scope Z_scope.

(** The answers of a history in which every panic is caught, None for the calls that unwound.  A refused edge leaves nothing
    behind; a get_max_flow whose answer does not fit the type has sent more than the type can say when it gives up, and what it
    has sent stays sent; every answer is the most that can be sent on top of the flow routed so far. *)
Inductive dn_after (T : ity) (n : nat) : list fedge -> list Z -> list dn_op -> list (option (option Z)) -> Prop :=
| df_nil es fs : dn_after T n es fs [] []
| df_edge es fs u v c ops outs : (u < n)%nat -> (v < n)%nat -> dn_after T n (es ++ [(u, v, c)]) (fs ++ [0]) ops outs ->
    dn_after T n es fs (DnEdge u v c :: ops) (Some None :: outs)
| df_bad_edge es fs u v c ops outs : (n <= u)%nat -> dn_after T n es fs ops outs -> dn_after T n es fs (DnEdge u v c :: ops) (None :: outs)
| df_flow es fs fs' s t v ops outs : (s < n)%nat -> (t < n)%nat -> s <> t ->
    reroute es s t fs fs' v -> (forall fs'' v', reroute es s t fs fs'' v' -> v' <= v) -> v <= it_max T ->
    dn_after T n es fs' ops outs -> dn_after T n es fs (DnFlow s t :: ops) (Some (Some v) :: outs)
| df_overflow es fs fs' s t v ops outs : (s < n)%nat -> (t < n)%nat -> s <> t ->
    reroute es s t fs fs' v -> it_max T < v -> dn_after T n es fs' ops outs ->
    dn_after T n es fs (DnFlow s t :: ops) (None :: outs)
| df_same es fs s ops outs : (s < n)%nat -> dn_after T n es fs ops outs -> dn_after T n es fs (DnFlow s s :: ops) (Some (Some 0) :: outs)
| df_bad_flow es fs s t ops outs : ~ ((s < n)%nat /\ (t < n)%nat) -> dn_after T n es fs ops outs ->
    dn_after T n es fs (DnFlow s t :: ops) (None :: outs).

(** Capacities in range, and no edge that the graph accepts at its tail but not at its head. *)
Definition no_half_edge (T : ity) (n : nat) (o : dn_op) : Prop :=
  match o with
  | DnEdge u v c => 0 <= c <= it_max T /\ ((u < n)%nat -> (v < n)%nat)
  | DnFlow _ _ => True
  end.
Close Scope Z_scope.
