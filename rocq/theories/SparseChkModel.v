(** Model of src/data_structure/sparse_table.rs with a closure that may panic. *)
From Verif Require Import Prelude UtilModel SparseModel.

Section Sparse.
  Context {T : Type} (opc : T -> T -> res T).

  (** sparse_table.rs:26-28  inner loop of `from` for one row c *)
  Definition spc_row (n c : nat) (data : list (list T)) : res (list (list T)) :=
    bound ← nsub n (2 ^ c);
    rfor (range_incl 0 bound) (fun i data =>
      x ← vget2 data (c - 1) i;
      y ← vget2 data (c - 1) (i + 2 ^ (c - 1));
      z ← opc x y;
      vset2 data c i z) data.

  (** sparse_table.rs:19-33  from *)
  Definition spc_from (v : list T) (init : T) : res (list (list T)) :=
    let n := length v in
    k ← lgn n;
    let count := k + 1 in
    let data := replicate count (replicate n init) in
    data ← vset data 0 v;
    rfor (range 1 count) (fun c data => spc_row n c data) data.

  (** sparse_table.rs:36-40  get *)
  Definition spc_get (data : list (list T)) (l r : nat) : res T :=
    rassert (l <? r) ;;
    c ← lgn (r - l);
    x ← vget2 data c l;
    j ← nsub r (2 ^ c);
    y ← vget2 data c j;
    opc x y.
End Sparse.
