(** Clients of scc (graph/tarjan.rs): 2-SAT and topological sorting.  Not code of /repo. *)
From Verif Require Import Prelude UtilModel SccModel.

(** g[u].push(v) *)
Definition g_push (g : list (list nat)) (u v : nat) : res (list (list nat)) := es ← vget g u; vset g u (es ++ [v]).

(** let mut g = vec![vec![]; 2 * n]; for (a, b) in cs { g[a ^ 1].push(b); g[b ^ 1].push(a); } *)
Definition sat_graph (n : nat) (cs : list (nat * nat)) : res (list (list nat)) :=
  rfor cs (fun c g => g ← g_push g (Nat.lxor c.1 1) c.2; g_push g (Nat.lxor c.2 1) c.1) (replicate (2 * n) []).

(** let (_, col) = scc(&g); let mut f = vec![];
    for i in 0..n { if col[2 * i] == col[2 * i + 1] { return None; } f.push(col[2 * i] < col[2 * i + 1]); }  Some(f)
    The state is None after the return. *)
Definition two_sat (n : nat) (cs : list (nat * nat)) : res (option (list bool)) :=
  g ← sat_graph n cs;
  '(_, col) ← scc g;
  rfor (range 0 n) (fun i s =>
    match s with
    | None => Ok None
    | Some f => x ← vget col (2 * i); y ← vget col (2 * i + 1); Ok (if x =? y then None else Some (f ++ [x <? y]))
    end) (Some []).

(** let (cnt, col) = scc(&g); if cnt < n { return None; }
    let mut order = vec![0; n]; for v in 0..n { order[n - 1 - col[v]] = v; }  Some(order) *)
Definition topo_sort (g : list (list nat)) : res (option (list nat)) :=
  '(cnt, col) ← scc g;
  if cnt <? length g then Ok None else
  order ← rfor (range 0 (length g)) (fun v order =>
    x ← nsub (length g) 1; c ← vget col v; k ← nsub x c; vset order k v) (replicate (length g) 0);
  Ok (Some order).
