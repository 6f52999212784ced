(** A client of union_find.rs: linking the endpoints of edges through their representatives. *)
From Verif Require Import Prelude ArraySpec UnionFindModel.

(** let a = uf.find(a); let b = uf.find(b); uf.join(a, b) *)
Definition uf_link (u : uf) (p : nat * nat) : res (uf * bool) :=
  '(u, a) ← uf_find u p.1;
  '(u, b) ← uf_find u p.2;
  uf_join u a b.

(** UnionFind::new(n), then every edge in turn; the answers of join. *)
Definition uf_link_all (n : nat) (es : list (nat * nat)) : res (uf * list bool) := run uf_link (uf_new n) es.
