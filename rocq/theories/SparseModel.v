(** Model of src/data_structure/sparse_table.rs. *)
From Verif Require Import Prelude UtilModel.

Section Sparse.
  Context {T : Type}.

  (** sparse_table.rs:21  `lg(n) as usize` on a length. *)
  Definition lgn (n : nat) : res nat := k ← lg (Z.of_nat n); Ok (Z.to_nat k).

  (** v[c][i] and v[c][i] = x on Vec<Vec<T>> *)
  Definition vget2 {A} (v : list (list A)) (c i : nat) : res A := row ← vget v c; vget row i.
  Definition vset2 {A} (v : list (list A)) (c i : nat) (x : A) : res (list (list A)) :=
    row ← vget v c; row ← vset row i x; vset v c row.

  (** sparse_table.rs:26-28  inner loop of `from` for one row c *)
  Definition sp_row (op : T -> T -> T) (n c : nat) (data : list (list T)) : res (list (list T)) :=
    bound ← nsub n (2 ^ c);
    rfor (range_incl 0 bound) (fun i data =>
      x ← vget2 data (c - 1) i;
      y ← vget2 data (c - 1) (i + 2 ^ (c - 1));
      vset2 data c i (op x y)) data.

  (** sparse_table.rs:19-33  from; the result is the `data` field (the closure `op` is a parameter everywhere). *)
  Definition sp_from (v : list T) (init : T) (op : T -> T -> T) : res (list (list T)) :=
    let n := length v in
    k ← lgn n;
    let count := k + 1 in
    let data := replicate count (replicate n init) in
    data ← vset data 0 v;
    rfor (range 1 count) (fun c data => sp_row op n c data) data.

  (** sparse_table.rs:36-40  get *)
  Definition sp_get (op : T -> T -> T) (data : list (list T)) (l r : nat) : res T :=
    rassert (l <? r) ;;
    c ← lgn (r - l);
    x ← vget2 data c l;
    j ← nsub r (2 ^ c);
    y ← vget2 data c j;
    Ok (op x y).
End Sparse.
