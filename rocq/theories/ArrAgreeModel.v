(** Clients that solve one task with different structures.  Not code of /repo; they call the modelled functions of segtree.rs,
    fenwick_tree.rs and lazy_segtree.rs. *)
From Verif Require Import Prelude ArraySpec SegtreeSpec SegtreeModel FenwickSpec FenwickModel LazySpec LazyModel.

(** Calls of Segtree made on a LazySegtree, and their answers. *)
Definition as_lazy {S F} (o : sg_op S) : lz_op S F :=
  match o with SgSet p x => LzSet p x | SgGet p => LzGet p | SgProd l r => LzProd l r | SgAllProd => LzAllProd end.
Definition as_lazy_out {S} (o : sg_out S) : lz_out S := match o with SgUnit => LzUnit | SgVal x => LzVal x end.

(** A Segtree of n entries in place of a FenwickTree:  if i < n { t.set(i, t.get(i) + u) },  t.prod(0..i),  t.prod(l..r) *)
Definition sf_step {T U} (zero : T) (add : T -> T -> T) (addu : T -> U -> T) (n : nat) (t : segtree T) (o : fw_op T U) : res (segtree T * fw_out T) :=
  match o with
  | FwAdd i u => if i <? n then x ← st_get t i; t ← st_set add t i (addu x u); Ok (t, FwUnit) else Ok (t, FwUnit)
  | FwPref i => x ← st_prod zero add t 0 i; Ok (t, FwVal x)
  | FwSum l r => x ← st_prod zero add t l r; Ok (t, FwVal x)
  end.

(** Range updates and point queries. *)
Inductive rg_op (F : Type) := RgApply (l r : nat) (f : F) | RgGet (i : nat).
Arguments RgApply {F}. Arguments RgGet {F}.

(** ... with a LazySegtree:  t.apply_range(l..r, f),  t.get(i) *)
Definition rg_lazy {S F} (op : S -> S -> S) (idm : F) (mapping : F -> S -> S) (comp : F -> F -> F) (t : lazytree S F) (o : rg_op F) : res (lazytree S F * option S) :=
  match o with
  | RgApply l r f => t ← lt_apply_range op idm mapping comp t l r f; Ok (t, None)
  | RgGet i => '(t, x) ← lt_get idm mapping comp t i; Ok (t, Some x)
  end.

(** ... with a FenwickTree of differences beside the original values v:
    t.add(l, f); t.add(r, -f);  mapping(t.pref(i + 1), v[i]) *)
Definition rg_fenwick {S F} (zero : F) (add : F -> F -> F) (neg : F -> F) (mapping : F -> S -> S) (v : list S) (t : fenwick F) (o : rg_op F) : res (fenwick F * option S) :=
  match o with
  | RgApply l r f => t ← fw_add add t l f; t ← fw_add add t r (neg f); Ok (t, None)
  | RgGet i => d ← fw_pref zero add t (i + 1); x ← vget v i; Ok (t, Some (mapping d x))
  end.
