(** Model of src/data_structure/sparse_table.rs with a closure that has side effects and may panic: the code of SparseChkModel.v
    with the state [W] of the closure threaded through. *)
From Verif Require Import Prelude Eff UtilModel SparseModel.

Section Sparse.
  Context {W T : Type} (opE : T -> T -> eff W T).

  (** sparse_table.rs:26-28  inner loop of `from` for one row c *)
  Definition spe_row (n c : nat) (data : list (list T)) : eff W (list (list T)) :=
    bound <* elift (nsub n (2 ^ c)) ;*
    efor (range_incl 0 bound) (fun i data =>
      x <* elift (vget2 data (c - 1) i) ;*
      y <* elift (vget2 data (c - 1) (i + 2 ^ (c - 1))) ;*
      z <* opE x y ;*
      elift (vset2 data c i z)) data.

  (** sparse_table.rs:19-33  from *)
  Definition spe_from (v : list T) (init : T) : eff W (list (list T)) :=
    let n := length v in
    k <* elift (lgn n) ;*
    let count := k + 1 in
    let data := replicate count (replicate n init) in
    data <* elift (vset data 0 v) ;*
    efor (range 1 count) (fun c data => spe_row n c data) data.

  (** sparse_table.rs:36-40  get *)
  Definition spe_get (data : list (list T)) (l r : nat) : eff W T :=
    elift (rassert (l <? r)) ;;*
    c <* elift (lgn (r - l)) ;*
    x <* elift (vget2 data c l) ;*
    j <* elift (nsub r (2 ^ c)) ;*
    y <* elift (vget2 data c j) ;*
    opE x y.
End Sparse.
