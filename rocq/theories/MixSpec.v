(** What the Fenwick tree and the sparse table compute when the functions supplied by the user satisfy no laws. *)
From Verif Require Import Prelude ArraySpec FenwickSpec.

(** x is put together from exactly the elements and the added amounts of l, each used once, in some order. *)
Inductive mixes {T U} (zero : T) (add : T -> T -> T) (addu : T -> U -> T) : list (T + U) -> T -> Prop :=
| mx_zero : mixes zero add addu [] zero
| mx_one x : mixes zero add addu [inl x] x
| mx_add l1 l2 x y : mixes zero add addu l1 x -> mixes zero add addu l2 y -> mixes zero add addu (l1 ++ l2) (add x y)
| mx_addu l x u : mixes zero add addu l x -> mixes zero add addu (l ++ [inr u]) (addu x u)
| mx_perm l l' x : l ≡ₚ l' -> mixes zero add addu l x -> mixes zero add addu l' x.

(** The calls of the Fenwick tree; a holds for every place the initial element, if one was given, and the amounts added since then. *)
Definition fw_any {T U} (zero : T) (add : T -> T -> T) (sub : T -> T -> T) (addu : T -> U -> T)
  (a : list (list (T + U))) (o : fw_op T U) (out : res (list (list (T + U)) * fw_out T)) : Prop :=
  let sums l x := mixes zero add addu (concat l) x in
  match o with
  | FwAdd i u => out = Ok (match a !! i with Some q => <[i := q ++ [inr u]]> a | None => a end, FwUnit)
  | FwPref i => if i <=? length a then exists x, sums (slice a 0 i) x /\ out = Ok (a, FwVal x) else out = Panic
  | FwSum l r =>
      if (l <=? length a) && (r <=? length a) then exists x y, sums (slice a 0 r) x /\ sums (slice a 0 l) y /\ out = Ok (a, FwVal (sub x y))
      else out = Panic
  end.

(** x is a product of the elements of l in this order, bracketed in some way. *)
Inductive folds {T} (op : T -> T -> T) : list T -> T -> Prop :=
| fd_one x : folds op [x] x
| fd_op l1 l2 x y : folds op l1 x -> folds op l2 y -> folds op (l1 ++ l2) (op x y).
(** x is a product of the k elements of v from i on; a block that does not fit counts as init. *)
Definition block_any {T} (op : T -> T -> T) (v : list T) (init : T) (i k : nat) (x : T) : Prop :=
  (i + k <= length v /\ folds op (slice v i (i + k)) x) \/ (length v < i + k /\ x = init).
