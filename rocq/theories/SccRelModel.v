(** A client of scc (graph/tarjan.rs): the graph of the components.  Not code of /repo. *)
From Verif Require Import Prelude SccModel SatModel.

(** let (cnt, col) = scc(&g); let mut r = vec![vec![]; cnt];
    for u in 0..g.len() { for &v in &g[u] { if col[u] != col[v] { r[col[u]].push(col[v]); } } } *)
Definition condense (g : list (list nat)) : res (list (list nat)) :=
  '(cnt, col) ← scc g;
  rfor (range 0 (length g)) (fun u r =>
    es ← vget g u;
    rfor es (fun v r => a ← vget col u; b ← vget col v; if a =? b then Ok r else g_push r a b) r) (replicate cnt []).
