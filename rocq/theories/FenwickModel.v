(** Model of src/data_structure/fenwick_tree.rs. *)
From Verif Require Import Prelude UtilModel FenwickSpec.

Section Fenwick.
  (** Default::default, Add/AddAssign<T>, Sub, AddAssign<U> (fenwick_tree.rs:6-13, 49-51, 73-75) as pure functions.
      Simplification: `+` and `+=` on T are the same function. *)
  Context {T U : Type} (zero : T) (add : T -> T -> T) (sub : T -> T -> T) (addu : T -> U -> T).

  (** fenwick_tree.rs:1-4  struct FenwickTree *)
  Record fenwick := Fenwick { fw_n : nat; fw_ary : list T }.

  (** fenwick_tree.rs:16-21  new *)
  Definition fw_new (n : nat) : fenwick := Fenwick n (replicate n zero).

  (** fenwick_tree.rs:24-36  from *)
  Definition fw_from (a : list T) : res fenwick :=
    let n := length a in
    ary ← rfor (range_incl 1 n) (fun i ary =>
            x ← vget a (i - 1);
            y ← vget ary (i - 1);
            ary ← vset ary (i - 1) (add y x);
            let j := i + lowbit i in
            if j <=? n then
              tmp ← vget ary (i - 1);
              z ← vget ary (j - 1);
              vset ary (j - 1) (add z tmp)
            else Ok ary) (fw_ary (fw_new n));
    Ok (Fenwick n ary).

  (** fenwick_tree.rs:39-46  pref *)
  Definition fw_pref (t : fenwick) (idx : nat) : res T :=
    rloop (idx + 1) (fun '(idx, sum) =>
      if 0 <? idx then
        x ← vget (fw_ary t) (idx - 1);
        Ok (inl (Nat.land idx (idx - 1), add sum x))
      else Ok (inr sum)) (idx, zero).

  (** fenwick_tree.rs:49-59  add *)
  Definition fw_add (t : fenwick) (idx : nat) (val : U) : res fenwick :=
    let n := fw_n t in
    ary ← rloop (n + 2) (fun '(idx, ary) =>
            if idx <=? n then
              x ← vget ary (idx - 1);
              ary ← vset ary (idx - 1) (addu x val);
              Ok (inl (idx + lowbit idx, ary))
            else Ok (inr ary)) (idx + 1, fw_ary t);
    Ok (Fenwick n ary).

  (** fenwick_tree.rs:73-78  sum *)
  Definition fw_sum (t : fenwick) (l r : nat) : res T :=
    pr ← fw_pref t r;
    pl ← fw_pref t l;
    Ok (sub pr pl).

  (** fenwick_tree.rs:97-111  partition_point; `usize::BITS - 1 - n.leading_zeros()` is the u32 arithmetic of [lg].
      Simplification: the FnMut predicate is a pure function; see EffectModel.v for one with effects. *)
  Definition fw_partition_point (t : fenwick) (pred : T -> bool) : res nat :=
    top ← lg (Z.of_nat (fw_n t));
    '(pos, sum) ← rfor (rev (range_incl 0 (Z.to_nat top))) (fun i '(pos, sum) =>
            let next := pos + 2 ^ i in
            if next <=? fw_n t then
              x ← vget (fw_ary t) (next - 1);
              if pred (add sum x) then Ok (next, add sum x) else Ok (pos, sum)
            else Ok (pos, sum)) (0, zero);
    Ok pos.

  (** fenwick_tree.rs:125-127  search; [lt] is PartialOrd::lt *)
  Definition fw_search (lt : T -> T -> bool) (t : fenwick) (target : T) : res nat :=
    fw_partition_point t (fun x => lt x target).

  (** One public API call; only the call/return interface, no new logic. *)
  Definition fw_step (t : fenwick) (o : fw_op T U) : res (fenwick * fw_out T) :=
    match o with
    | FwAdd i u => t ← fw_add t i u; Ok (t, FwUnit)
    | FwPref i => x ← fw_pref t i; Ok (t, FwVal x)
    | FwSum l r => x ← fw_sum t l r; Ok (t, FwVal x)
    end.
End Fenwick.
Arguments fenwick : clear implicits.
Arguments Fenwick {T}.
