(** src/data_structure/union_find.rs with panics that are caught: the code of UnionFindModel.v, writing to the memory step by
    step. *)
From Verif Require Import Prelude Unwind UnionFindModel.

(** union_find.rs:16-23  find, recursion on fuel *)
Fixpoint ufu_find_from (fuel : nat) (i : nat) : uw uf nat :=
  match fuel with
  | O => fun _ => Diverge
  | S fuel =>
      p <~ uread (fun u => vget (uf_fa u) i) ;~
      if p =? i then uret i
      else
        r <~ ufu_find_from fuel p ;~
        uwrite (fun u => fa ← vset (uf_fa u) i r; Ok (Uf (uf_n u) fa (uf_sz u))) ;;~
        uread (fun u => vget (uf_fa u) i)
  end.
Definition ufu_find (i : nat) : uw uf nat := fun u => ufu_find_from (S (length (uf_fa u))) i u.
(** assert!(x < self.n) *)
Definition ufu_assert (x : nat) : uw uf unit := uread (fun u => rassert (x <? uf_n u)).

(** union_find.rs:25-29  is_same *)
Definition ufu_is_same (x y : nat) : uw uf bool :=
  ufu_assert x ;;~ ufu_assert y ;;~ fx <~ ufu_find x ;~ fy <~ ufu_find y ;~ uret (fx =? fy).

(** union_find.rs:31-44  join; self.fa[x] is written before self.sz[y] *)
Definition ufu_join (x y : nat) : uw uf bool :=
  ufu_assert x ;;~
  ufu_assert y ;;~
  fx <~ ufu_find x ;~
  fy <~ ufu_find y ;~
  if fx =? fy then uret false
  else
    uread (fun u => vget (uf_sz u) x) ;;~
    uread (fun u => vget (uf_sz u) y) ;;~
    uwrite (fun u => fa ← vset (uf_fa u) x y; Ok (Uf (uf_n u) fa (uf_sz u))) ;;~
    uwrite (fun u => sx ← vget (uf_sz u) x; sy ← vget (uf_sz u) y; s ← uadd sy sx; sz ← vset (uf_sz u) y s; Ok (Uf (uf_n u) (uf_fa u) sz)) ;;~
    uret true.

(** union_find.rs:46-50  size *)
Definition ufu_size (x : nat) : uw uf Z := ufu_assert x ;;~ fx <~ ufu_find x ;~ uread (fun u => vget (uf_sz u) fx).

(** union_find.rs:52-61  groups; result is a local variable *)
Definition ufu_groups : uw uf (list (list nat)) :=
  n <~ uread (fun u => Ok (uf_n u)) ;~
  result <~ ufor (range 0 n) (fun i result =>
    r <~ ufu_find i ;~
    uread (fun _ => g ← vget result r; vset result r (g ++ [i]))) (replicate n []) ;~
  uret (filter (fun g => g <> []) result).

Definition ufu_step (o : uf_op) : uw uf uf_out :=
  match o with
  | UfFind i => r <~ ufu_find i ;~ uret (UfIdx r)
  | UfSame x y => b <~ ufu_is_same x y ;~ uret (UfBool b)
  | UfJoin x y => b <~ ufu_join x y ;~ uret (UfBool b)
  | UfSize x => s <~ ufu_size x ;~ uret (UfNum s)
  | UfGroups => g <~ ufu_groups ;~ uret (UfLists g)
  end.
