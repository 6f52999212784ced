(** src/data_structure/union_find.rs again, counting the calls of `find`, the recursive ones included.  The counter is the state of Eff.v. *)
From Verif Require Import Prelude Eff UnionFindModel GraphWorkModel.

(** union_find.rs:16-23  find, on the parent array *)
Fixpoint uf_find_faW (fuel : nat) (fa : list nat) (i : nat) : eff nat (list nat * nat) :=
  match fuel with
  | O => fun _ => Diverge
  | S fuel =>
      tick ;;*
      p <* elift (vget fa i) ;*
      if p =? i then eret (fa, i)
      else
        '(fa, r) <* uf_find_faW fuel fa p ;*
        fa <* elift (vset fa i r) ;*
        x <* elift (vget fa i) ;*
        eret (fa, x)
  end.

(** union_find.rs:16-23  find *)
Definition uf_findW (u : uf) (i : nat) : eff nat (uf * nat) :=
  '(fa, r) <* uf_find_faW (S (length (uf_fa u))) (uf_fa u) i ;*
  eret (Uf (uf_n u) fa (uf_sz u), r).

(** union_find.rs:25-29  is_same *)
Definition uf_is_sameW (u : uf) (x y : nat) : eff nat (uf * bool) :=
  elift (rassert (x <? uf_n u)) ;;*
  elift (rassert (y <? uf_n u)) ;;*
  '(u, fx) <* uf_findW u x ;*
  '(u, fy) <* uf_findW u y ;*
  eret (u, fx =? fy).

(** union_find.rs:31-44  join *)
Definition uf_joinW (u : uf) (x y : nat) : eff nat (uf * bool) :=
  elift (rassert (x <? uf_n u)) ;;*
  elift (rassert (y <? uf_n u)) ;;*
  '(u, fx) <* uf_findW u x ;*
  '(u, fy) <* uf_findW u y ;*
  if fx =? fy then eret (u, false)
  else
    sx <* elift (vget (uf_sz u) x) ;*
    sy <* elift (vget (uf_sz u) y) ;*
    let '(fx, fy) := if (sy <? sx)%Z then (fy, fx) else (fx, fy) in
    fa <* elift (vset (uf_fa u) x y) ;*
    s <* elift (uadd sy sx) ;*
    sz <* elift (vset (uf_sz u) y s) ;*
    eret (Uf (uf_n u) fa sz, true).

(** union_find.rs:46-50  size *)
Definition uf_sizeW (u : uf) (x : nat) : eff nat (uf * Z) :=
  elift (rassert (x <? uf_n u)) ;;*
  '(u, fx) <* uf_findW u x ;*
  s <* elift (vget (uf_sz u) fx) ;*
  eret (u, s).

(** union_find.rs:54-56  loop of groups *)
Definition uf_groups_loopW (u : uf) : eff nat (uf * list (list nat)) :=
  efor (range 0 (uf_n u)) (fun i '(u, result) =>
    '(u, r) <* uf_findW u i ;*
    g <* elift (vget result r) ;*
    result <* elift (vset result r (g ++ [i])) ;*
    eret (u, result)) (u, replicate (uf_n u) []).

(** union_find.rs:52-61  groups *)
Definition uf_groupsW (u : uf) : eff nat (uf * list (list nat)) :=
  '(u, result) <* uf_groups_loopW u ;*
  eret (u, filter (fun g => g <> []) result).

(** API calls *)
Definition uf_stepW (u : uf) (o : uf_op) : eff nat (uf * uf_out) :=
  match o with
  | UfFind i => '(u, r) <* uf_findW u i ;* eret (u, UfIdx r)
  | UfSame x y => '(u, b) <* uf_is_sameW u x y ;* eret (u, UfBool b)
  | UfJoin x y => '(u, b) <* uf_joinW u x y ;* eret (u, UfBool b)
  | UfSize x => '(u, s) <* uf_sizeW u x ;* eret (u, UfNum s)
  | UfGroups => '(u, g) <* uf_groupsW u ;* eret (u, UfLists g)
  end.
