(** A client of union_find.rs: two-colouring a graph with a union-find over two copies of its vertices.  Not code of /repo. *)
From Verif Require Import Prelude ArraySpec UnionFindModel LinkModel.

(** An edge (u, v) links u with the copy of v, and the copy of u with v; the copy of v is v + n. *)
Definition double (n : nat) (es : list (nat * nat)) : list (nat * nat) := concat (map (fun e => [(e.1, e.2 + n); (e.1 + n, e.2)]) es).
(** After linking: v is coloured by comparing find(v) and find(v + n); None if they are equal for some v. *)
Definition two_colour (n : nat) (es : list (nat * nat)) : res (option (list bool)) :=
  x ← uf_link_all (2 * n) (double n es);
  r ← rfor (range 0 n) (fun v st =>
        match st with
        | (u, None) => Ok (u, None)
        | (u, Some cs) =>
            '(u, a) ← uf_find u v;
            '(u, b) ← uf_find u (v + n);
            Ok (u, if a =? b then None else Some (cs ++ [a <? b]))
        end) (x.1, Some []);
  Ok r.2.
