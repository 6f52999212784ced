(** Model of src/data_structure/union_find.rs. *)
From Verif Require Import Prelude.

(** union_find.rs:1-5  struct UnionFind; sz holds usize values as Z. *)
Record uf := Uf { uf_n : nat; uf_fa : list nat; uf_sz : list Z }.

(** union_find.rs:8-14  new *)
Definition uf_new (n : nat) : uf := Uf n (seq 0 n) (replicate n 1%Z).

(** union_find.rs:16-23  find, on the parent array; recursion on fuel *)
Fixpoint uf_find_fa (fuel : nat) (fa : list nat) (i : nat) : res (list nat * nat) :=
  match fuel with
  | O => Diverge
  | S fuel =>
      p ← vget fa i;
      if p =? i then Ok (fa, i)
      else
        '(fa, r) ← uf_find_fa fuel fa p;
        fa ← vset fa i r;
        x ← vget fa i;
        Ok (fa, x)
  end.

(** union_find.rs:16-23  find; the fuel covers every acyclic parent array *)
Definition uf_find (u : uf) (i : nat) : res (uf * nat) :=
  '(fa, r) ← uf_find_fa (S (length (uf_fa u))) (uf_fa u) i;
  Ok (Uf (uf_n u) fa (uf_sz u), r).

(** union_find.rs:25-29  is_same *)
Definition uf_is_same (u : uf) (x y : nat) : res (uf * bool) :=
  rassert (x <? uf_n u) ;;
  rassert (y <? uf_n u) ;;
  '(u, fx) ← uf_find u x;
  '(u, fy) ← uf_find u y;
  Ok (u, fx =? fy).

(** usize `+=` with overflow checks *)
Definition uadd (a b : Z) : res Z := if (a + b <? 2 ^ 64)%Z then Ok (a + b)%Z else Panic.

(** union_find.rs:31-44  join.  The comparison of sz[x], sz[y] only swaps two locals that are not used afterwards
    (union_find.rs:38-40); the reads themselves are kept. *)
Definition uf_join (u : uf) (x y : nat) : res (uf * bool) :=
  rassert (x <? uf_n u) ;;
  rassert (y <? uf_n u) ;;
  '(u, fx) ← uf_find u x;
  '(u, fy) ← uf_find u y;
  if fx =? fy then Ok (u, false)
  else
    sx ← vget (uf_sz u) x;
    sy ← vget (uf_sz u) y;
    let '(fx, fy) := if (sy <? sx)%Z then (fy, fx) else (fx, fy) in
    fa ← vset (uf_fa u) x y;
    s ← uadd sy sx;
    sz ← vset (uf_sz u) y s;
    Ok (Uf (uf_n u) fa sz, true).

(** union_find.rs:46-50  size *)
Definition uf_size (u : uf) (x : nat) : res (uf * Z) :=
  rassert (x <? uf_n u) ;;
  '(u, fx) ← uf_find u x;
  s ← vget (uf_sz u) fx;
  Ok (u, s).

(** union_find.rs:54-56  loop of groups *)
Definition uf_groups_loop (u : uf) : res (uf * list (list nat)) :=
  rfor (range 0 (uf_n u)) (fun i '(u, result) =>
    '(u, r) ← uf_find u i;
    g ← vget result r;
    result ← vset result r (g ++ [i]);
    Ok (u, result)) (u, replicate (uf_n u) []).

(** union_find.rs:52-61  groups *)
Definition uf_groups (u : uf) : res (uf * list (list nat)) :=
  '(u, result) ← uf_groups_loop u;
  Ok (u, filter (fun g => g <> []) result).

(** API calls and histories; only the call interface, no new logic. *)
Inductive uf_op := UfFind (i : nat) | UfSame (x y : nat) | UfJoin (x y : nat) | UfSize (x : nat) | UfGroups.
Inductive uf_out := UfIdx (i : nat) | UfBool (b : bool) | UfNum (z : Z) | UfLists (l : list (list nat)).

Definition uf_step (u : uf) (o : uf_op) : res (uf * uf_out) :=
  match o with
  | UfFind i => '(u, r) ← uf_find u i; Ok (u, UfIdx r)
  | UfSame x y => '(u, b) ← uf_is_same u x y; Ok (u, UfBool b)
  | UfJoin x y => '(u, b) ← uf_join u x y; Ok (u, UfBool b)
  | UfSize x => '(u, s) ← uf_size u x; Ok (u, UfNum s)
  | UfGroups => '(u, g) ← uf_groups u; Ok (u, UfLists g)
  end.
