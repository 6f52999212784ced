(** Model of src/data_structure/fenwick_tree.rs over additions, a subtraction and a predicate that have side effects and may panic:
    the code of FenwickChkModel.v with the state [W] those functions share threaded through. *)
From Verif Require Import Prelude Eff UtilModel FenwickSpec FenwickModel.

Section Fenwick.
  (** addE is `+` and `+=` on T, adduE is `+=` with a value of type U, subE is `-` (fenwick_tree.rs:6-13, 49-51, 73-75). *)
  Context {W T U : Type} (zero : T) (addE : T -> T -> eff W T) (subE : T -> T -> eff W T) (adduE : T -> U -> eff W T).

  (** fenwick_tree.rs:24-36  from *)
  Definition fwe_from (a : list T) : eff W (fenwick T) :=
    let n := length a in
    ary <* efor (range_incl 1 n) (fun i ary =>
            x <* elift (vget a (i - 1)) ;*
            y <* elift (vget ary (i - 1)) ;*
            y <* addE y x ;*
            ary <* elift (vset ary (i - 1) y) ;*
            let j := i + lowbit i in
            if j <=? n then
              tmp <* elift (vget ary (i - 1)) ;*
              z <* elift (vget ary (j - 1)) ;*
              z <* addE z tmp ;*
              elift (vset ary (j - 1) z)
            else eret ary) (fw_ary (fw_new zero n)) ;*
    eret (Fenwick n ary).

  (** fenwick_tree.rs:39-46  pref *)
  Definition fwe_pref (t : fenwick T) (idx : nat) : eff W T :=
    eloop (idx + 1) (fun '(idx, sum) =>
      if 0 <? idx then
        x <* elift (vget (fw_ary t) (idx - 1)) ;*
        sum <* addE sum x ;*
        eret (inl (Nat.land idx (idx - 1), sum))
      else eret (inr sum)) (idx, zero).

  (** fenwick_tree.rs:49-59  add *)
  Definition fwe_add (t : fenwick T) (idx : nat) (val : U) : eff W (fenwick T) :=
    let n := fw_n t in
    ary <* eloop (n + 2) (fun '(idx, ary) =>
            if idx <=? n then
              x <* elift (vget ary (idx - 1)) ;*
              x <* adduE x val ;*
              ary <* elift (vset ary (idx - 1) x) ;*
              eret (inl (idx + lowbit idx, ary))
            else eret (inr ary)) (idx + 1, fw_ary t) ;*
    eret (Fenwick n ary).

  (** fenwick_tree.rs:73-78  sum *)
  Definition fwe_sum (t : fenwick T) (l r : nat) : eff W T :=
    pr <* fwe_pref t r ;*
    pl <* fwe_pref t l ;*
    subE pr pl.

  (** fenwick_tree.rs:97-111  partition_point; the addition is run once for the test and once more for the new sum *)
  Definition fwe_partition_point (t : fenwick T) (pred : T -> eff W bool) : eff W nat :=
    top <* elift (lg (Z.of_nat (fw_n t))) ;*
    '(pos, sum) <* efor (rev (range_incl 0 (Z.to_nat top))) (fun i '(pos, sum) =>
            let next := pos + 2 ^ i in
            if next <=? fw_n t then
              x <* elift (vget (fw_ary t) (next - 1)) ;*
              y <* addE sum x ;*
              b <* pred y ;*
              if b : bool then sum <* addE sum x ;* eret (next, sum) else eret (pos, sum)
            else eret (pos, sum)) (0, zero) ;*
    eret pos.

  (** One public API call. *)
  Definition fwe_step (t : fenwick T) (o : fw_op T U) : eff W (fenwick T * fw_out T) :=
    match o with
    | FwAdd i u => t <* fwe_add t i u ;* eret (t, FwUnit)
    | FwPref i => x <* fwe_pref t i ;* eret (t, FwVal x)
    | FwSum l r => x <* fwe_sum t l r ;* eret (t, FwVal x)
    end.
End Fenwick.
