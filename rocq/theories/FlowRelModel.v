(** A client of Dinic: build a network and ask once.  Not code of /repo. *)
From Verif Require Import Prelude IntModel DinicModel DinicSpec.

(** let mut d = Dinic::new(n); for &(u, v, c) in es { d.add_edge(u, v, c); } d.get_max_flow(s, t) *)
Definition max_flow_of (T : ity) (n : nat) (es : list fedge) (s t : nat) : res Z :=
  d ← rfor es (fun x d => dn_add_edge d x.1.1 x.1.2 x.2) (dn_new n);
  r ← dn_max_flow T d s t;
  Ok r.2.
