(** Specification of maximum flow, independent of the algorithm. *)
From Verif Require Import Prelude IntModel DinicModel.
Open Scope Z_scope.

(** A network: its edges (tail, head, capacity).  A flow: one number per edge. *)
Notation fedge := (nat * nat * Z)%type.

(** Flow leaving / entering vertex x. *)
Fixpoint outflow (es : list fedge) (fs : list Z) (x : nat) : Z :=
  match es, fs with
  | (u, _, _) :: es, f :: fs => (if (u =? x)%nat then f else 0) + outflow es fs x
  | _, _ => 0
  end.
Fixpoint inflow (es : list fedge) (fs : list Z) (x : nat) : Z :=
  match es, fs with
  | (_, v, _) :: es, f :: fs => (if (v =? x)%nat then f else 0) + inflow es fs x
  | _, _ => 0
  end.

(** 0 <= flow <= capacity on each edge, and what enters an inner vertex leaves it. *)
Definition feasible (es : list fedge) (s t : nat) (fs : list Z) : Prop :=
  Forall2 (fun e f => 0 <= f <= e.2) es fs /\
  forall x, x <> s -> x <> t -> outflow es fs x = inflow es fs x.
Definition flow_value (es : list fedge) (s : nat) (fs : list Z) : Z := outflow es fs s - inflow es fs s.

Definition is_max_flow (es : list fedge) (s t : nat) (v : Z) : Prop :=
  (exists fs, feasible es s t fs /\ flow_value es s fs = v) /\
  forall fs, feasible es s t fs -> flow_value es s fs <= v.

(** A cut: a set of vertices containing s and not t; its capacity. *)
Fixpoint cut_cap (es : list fedge) (S : nat -> bool) : Z :=
  match es with
  | [] => 0
  | (u, v, c) :: es => (if S u && negb (S v) then c else 0) + cut_cap es S
  end.
Definition is_min_cut (es : list fedge) (s t : nat) (v : Z) : Prop :=
  (exists S, S s = true /\ S t = false /\ cut_cap es S = v) /\
  forall S, S s = true -> S t = false -> v <= cut_cap es S.

(** Edges added by a history. *)
Fixpoint dn_edges (ops : list dn_op) : list fedge :=
  match ops with
  | [] => []
  | DnEdge u v c :: ops => (u, v, c) :: dn_edges ops
  | DnFlow _ _ :: ops => dn_edges ops
  end.
(** The answers of a history in which every get_max_flow asks for s and t: starting from the edges es and the total tot
    of the answers so far, each answer brings the total to the maximum flow (and minimum cut) of the edges added so far. *)
Fixpoint dn_spec (s t : nat) (es : list fedge) (tot : Z) (ops : list dn_op) (outs : list (option Z)) : Prop :=
  match ops, outs with
  | [], [] => True
  | DnEdge u v c :: ops, None :: outs => dn_spec s t (es ++ [(u, v, c)]) tot ops outs
  | DnFlow _ _ :: ops, Some v :: outs =>
      is_max_flow es s t (tot + v) /\ is_min_cut es s t (tot + v) /\ dn_spec s t es (tot + v) ops outs
  | _, _ => False
  end.

(** Calls with changing s and t.  The state: the edges es added so far and the flow fs routed so far (one number per edge,
    within the capacities; what it does at the vertices depends on the earlier calls).  reroute: fs' can be reached from fs
    by sending v more from s to t, everything else balanced. *)
Definition net_out (es : list fedge) (fs : list Z) (x : nat) : Z := outflow es fs x - inflow es fs x.
Definition reroute (es : list fedge) (s t : nat) (fs fs' : list Z) (v : Z) : Prop :=
  Forall2 (fun e f => 0 <= f <= e.2) es fs' /\
  forall x, net_out es fs' x = net_out es fs x + (if (s =? x)%nat then v else 0) - (if (t =? x)%nat then v else 0).

(** Allowed answers of a history on n vertices, with answers of type T: get_max_flow(s, t) returns the most that can still be
    sent from s to t on top of the flow routed so far, and panics if that exceeds the range of T; 0 for s = t;
    vertices out of range panic. *)
Inductive dn_allowed (T : ity) (n : nat) : list fedge -> list Z -> list dn_op -> res (list (option Z)) -> Prop :=
| da_nil es fs : dn_allowed T n es fs [] (Ok [])
| da_edge es fs u v c ops r : (u < n)%nat -> (v < n)%nat -> dn_allowed T n (es ++ [(u, v, c)]) (fs ++ [0]) ops r ->
    dn_allowed T n es fs (DnEdge u v c :: ops) (cons None <$> r)
| da_bad_edge es fs u v c ops : ~ ((u < n)%nat /\ (v < n)%nat) -> dn_allowed T n es fs (DnEdge u v c :: ops) Panic
| da_flow es fs fs' s t v ops r : (s < n)%nat -> (t < n)%nat -> s <> t ->
    reroute es s t fs fs' v -> (forall fs'' v', reroute es s t fs fs'' v' -> v' <= v) -> v <= it_max T ->
    dn_allowed T n es fs' ops r -> dn_allowed T n es fs (DnFlow s t :: ops) (cons (Some v) <$> r)
| da_overflow es fs fs' s t v ops : (s < n)%nat -> (t < n)%nat -> s <> t ->
    reroute es s t fs fs' v -> it_max T < v -> dn_allowed T n es fs (DnFlow s t :: ops) Panic
| da_same es fs s ops r : (s < n)%nat -> dn_allowed T n es fs ops r -> dn_allowed T n es fs (DnFlow s s :: ops) (cons (Some 0) <$> r)
| da_bad_flow es fs s t ops : ~ ((s < n)%nat /\ (t < n)%nat) -> dn_allowed T n es fs (DnFlow s t :: ops) Panic.
Close Scope Z_scope.
