(** Client code over BinaryLifting: the size of the smallest connected set of vertices of a tree that contains given ones, from the distances
    around the vertices in the order of tin.  Not code of /repo; it calls the modelled functions of binary_lifting.rs (LiftModel.v). *)
From Verif Require Import Prelude LiftModel VirtModel.

(** let mut u = vs[k - 1]; for &v in &vs { d += b.dis(u, v); u = v } *)
Definition around (b : bl) (u : nat) (vs : list nat) : res (nat * nat) :=
  rfor vs (fun v s => e ← bl_dis b s.1 v; Ok (v, s.2 + e)) (u, 0).
(** vs.sort_by_key(|&v| b.tin[v]); if vs.is_empty() { return 0 } ...; d / 2 + 1 *)
Definition steiner (b : bl) (vs : list nat) : res nat :=
  vs ← tin_sort b vs;
  match last vs with
  | None => Ok 0
  | Some u => s ← around b u vs; Ok (s.2 / 2 + 1)
  end.
