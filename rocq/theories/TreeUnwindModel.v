(** Models of the updates of src/data_structure/segtree.rs and fenwick_tree.rs over operations that may panic, with the
    memory a panic leaves behind. *)
From Verif Require Import Prelude UtilModel ArraySpec SegtreeSpec SegtreeModel SegtreeChkModel FenwickSpec FenwickModel FenwickChkModel Unwind.

Section Segtree.
  Context {S : Type} (e : S) (opc : S -> S -> res S).

  Definition with_d (t : segtree S) (d : list S) : segtree S := Segtree (sg_n t) (sg_size t) (sg_log t) d.

  (** segtree.rs:32-39  set; each update (segtree.rs:155-157) calls the operation before its single write *)
  Definition stu_set (p : nat) (x : S) : uw (segtree S) unit :=
    uread (fun t => rassert (p <? sg_n t)) ;;~
    (p <~ uread (fun t => Ok (p + sg_size t)) ;~
     uwrite (fun t => d ← vset (sg_d t) p x; Ok (with_d t d)) ;;~
     (log <~ uread (fun t => Ok (sg_log t)) ;~
      ufor (range_incl 1 log) (fun i _ => uwrite (fun t => d ← stc_update opc (sg_d t) (p / 2 ^ i); Ok (with_d t d))) tt)).

  (** One public API call; the queries only read. *)
  Definition stu_step (o : sg_op S) : uw (segtree S) (sg_out S) :=
    match o with
    | SgSet p x => stu_set p x ;;~ uret SgUnit
    | SgGet p => uread (fun t => x ← st_get t p; Ok (SgVal x))
    | SgProd l r => uread (fun t => x ← stc_prod e opc t l r; Ok (SgVal x))
    | SgAllProd => uread (fun t => x ← st_all_prod t; Ok (SgVal x))
    end.
End Segtree.

Section Fenwick.
  (** A `+=` that panics leaves its left side as it was (true of the primitive integers). *)
  Context {T U : Type} (zero : T) (addc : T -> T -> res T) (subc : T -> T -> res T) (adduc : T -> U -> res T).

  (** fenwick_tree.rs:53-58  one turn of the while loop of add *)
  Definition fwu_add_step (val : U) (idx : nat) : uw (fenwick T) (nat + unit) :=
    n <~ uread (fun t => Ok (fw_n t)) ;~
    (if idx <=? n then
       uwrite (fun t => x ← vget (fw_ary t) (idx - 1); x ← adduc x val; ary ← vset (fw_ary t) (idx - 1) x; Ok (Fenwick (fw_n t) ary)) ;;~
       uret (inl (idx + lowbit idx))
     else uret (inr tt)).
  (** fenwick_tree.rs:49-59  add *)
  Definition fwu_add (idx : nat) (val : U) : uw (fenwick T) unit :=
    n <~ uread (fun t => Ok (fw_n t)) ;~
    uloop (n + 2) (fwu_add_step val) (idx + 1).

  Definition fwu_step (o : fw_op T U) : uw (fenwick T) (fw_out T) :=
    match o with
    | FwAdd i u => fwu_add i u ;;~ uret FwUnit
    | FwPref i => uread (fun t => x ← fwc_pref zero addc t i; Ok (FwVal x))
    | FwSum l r => uread (fun t => x ← fwc_sum zero addc subc t l r; Ok (FwVal x))
    end.
End Fenwick.
