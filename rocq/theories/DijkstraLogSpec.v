(** Reading the record of a run of dijkstra. *)
From Verif Require Import Prelude DijkstraLogModel.
Open Scope Z_scope.

(** What was pushed, what was popped, which vertices had their edges read and at which distance, which edges were read: in order. *)
Definition dj_pushes (w : list dj_event) : list (Z * nat) := omap (fun x => match x with DjPush d v => Some (d, v) | _ => None end) w.
Definition dj_pops (w : list dj_event) : list (Z * nat) := omap (fun x => match x with DjPop d u => Some (d, u) | _ => None end) w.
Definition dj_scans (w : list dj_event) : list (Z * nat) := omap (fun x => match x with DjScan d u => Some (d, u) | _ => None end) w.
Definition dj_edges (w : list dj_event) : list (nat * (nat * Z)) := omap (fun x => match x with DjEdge u v c => Some (u, (v, c)) | _ => None end) w.

(** The edges of u, with u *)
Definition edges_of (g : list (list (nat * Z))) (u : nat) : list (nat * (nat * Z)) := (fun e => (u, e)) <$> default [] (g !! u).
Close Scope Z_scope.
