(** Model of src/data_structure/fenwick_tree.rs over additions and a subtraction that may panic (checked machine arithmetic). *)
From Verif Require Import Prelude UtilModel FenwickSpec FenwickModel.

Section Fenwick.
  (** addc is `+` and `+=` on T, adduc is `+=` with a value of type U, subc is `-` (fenwick_tree.rs:6-13, 49-51, 73-75). *)
  Context {T U : Type} (zero : T) (addc : T -> T -> res T) (subc : T -> T -> res T) (adduc : T -> U -> res T).

  (** fenwick_tree.rs:24-36  from *)
  Definition fwc_from (a : list T) : res (fenwick T) :=
    let n := length a in
    ary ← rfor (range_incl 1 n) (fun i ary =>
            x ← vget a (i - 1);
            y ← vget ary (i - 1);
            y ← addc y x;
            ary ← vset ary (i - 1) y;
            let j := i + lowbit i in
            if j <=? n then
              tmp ← vget ary (i - 1);
              z ← vget ary (j - 1);
              z ← addc z tmp;
              vset ary (j - 1) z
            else Ok ary) (fw_ary (fw_new zero n));
    Ok (Fenwick n ary).

  (** fenwick_tree.rs:39-46  pref *)
  Definition fwc_pref (t : fenwick T) (idx : nat) : res T :=
    rloop (idx + 1) (fun '(idx, sum) =>
      if 0 <? idx then
        x ← vget (fw_ary t) (idx - 1);
        sum ← addc sum x;
        Ok (inl (Nat.land idx (idx - 1), sum))
      else Ok (inr sum)) (idx, zero).

  (** fenwick_tree.rs:49-59  add *)
  Definition fwc_add (t : fenwick T) (idx : nat) (val : U) : res (fenwick T) :=
    let n := fw_n t in
    ary ← rloop (n + 2) (fun '(idx, ary) =>
            if idx <=? n then
              x ← vget ary (idx - 1);
              x ← adduc x val;
              ary ← vset ary (idx - 1) x;
              Ok (inl (idx + lowbit idx, ary))
            else Ok (inr ary)) (idx + 1, fw_ary t);
    Ok (Fenwick n ary).

  (** fenwick_tree.rs:73-78  sum *)
  Definition fwc_sum (t : fenwick T) (l r : nat) : res T :=
    pr ← fwc_pref t r;
    pl ← fwc_pref t l;
    subc pr pl.

  (** fenwick_tree.rs:97-111  partition_point; the addition is run once for the test and once more for the new sum *)
  Definition fwc_partition_point (t : fenwick T) (pred : T -> bool) : res nat :=
    top ← lg (Z.of_nat (fw_n t));
    '(pos, sum) ← rfor (rev (range_incl 0 (Z.to_nat top))) (fun i '(pos, sum) =>
            let next := pos + 2 ^ i in
            if next <=? fw_n t then
              x ← vget (fw_ary t) (next - 1);
              y ← addc sum x;
              if pred y then sum ← addc sum x; Ok (next, sum) else Ok (pos, sum)
            else Ok (pos, sum)) (0, zero);
    Ok pos.

  (** fenwick_tree.rs:125-127  search *)
  Definition fwc_search (lt : T -> T -> bool) (t : fenwick T) (target : T) : res nat :=
    fwc_partition_point t (fun x => lt x target).

  (** One public API call. *)
  Definition fwc_step (t : fenwick T) (o : fw_op T U) : res (fenwick T * fw_out T) :=
    match o with
    | FwAdd i u => t ← fwc_add t i u; Ok (t, FwUnit)
    | FwPref i => x ← fwc_pref t i; Ok (t, FwVal x)
    | FwSum l r => x ← fwc_sum t l r; Ok (t, FwVal x)
    end.
End Fenwick.
