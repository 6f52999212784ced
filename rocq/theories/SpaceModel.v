(** The states of the main loop of dijkstra. *)
From Verif Require Import Prelude HeapModel DijkstraModel.

(** shortest_path.rs:3-17  dis and q at the test of the while loop: after the first push, and after every turn. *)
Inductive turns (B : binheap (reverse (Z * nat))) (g : wgraph) (s : nat) : list (option Z) * bh B -> Prop :=
| turns_start dis : vset (replicate (length g) None) s (Some 0%Z) = Ok dis -> turns B g s (dis, mh_push B (mh_new B) (0%Z, s))
| turns_next st st' : turns B g s st -> dijkstra_step B g st = Ok (inl st') -> turns B g s st'.
