(** Products without algebraic laws, for instance sums of floating-point numbers: the result depends on how the product is bracketed. *)
From Verif Require Import Prelude ArraySpec SegtreeSpec LazySpec.

(** x is a product of the elements of l in this order, bracketed in some way, possibly with identities in between. *)
Inductive brackets {S} (e : S) (op : S -> S -> S) : list S -> S -> Prop :=
| br_e : brackets e op [] e
| br_one x : brackets e op [x] x
| br_op l1 l2 x y : brackets e op l1 x -> brackets e op l2 y -> brackets e op (l1 ++ l2) (op x y).

(** Allowed outcomes of a history, stopping at the first panic. *)
Inductive allowed_run {St Op Out} (allowed : St -> Op -> res (St * Out) -> Prop) : St -> list Op -> res (St * list Out) -> Prop :=
| ar_nil s : allowed_run allowed s [] (Ok (s, []))
| ar_panic s o ops : allowed s o Panic -> allowed_run allowed s (o :: ops) Panic
| ar_ok s s' s2 o out ops outs : allowed s o (Ok (s', out)) -> allowed_run allowed s' ops (Ok (s2, outs)) -> allowed_run allowed s (o :: ops) (Ok (s2, out :: outs))
| ar_later s s' o out ops : allowed s o (Ok (s', out)) -> allowed_run allowed s' ops Panic -> allowed_run allowed s (o :: ops) Panic.

(** The calls of the segment tree on the plain array a. *)
Definition sg_any {S} (e : S) (op : S -> S -> S) (a : list S) (o : sg_op S) (out : res (list S * sg_out S)) : Prop :=
  match o with
  | SgProd l r => if (l <=? r) && (r <=? length a) then exists x, out = Ok (a, SgVal x) /\ brackets e op (slice a l r) x else out = Panic
  | SgAllProd => exists x, out = Ok (a, SgVal x) /\ brackets e op a x
  | _ => out = sg_spec_step e op a o
  end.
(** What the searches return without laws. The prefix up to the returned place has a product satisfying f; if the search stopped early, the prefix longer by one has one that does not.
    A place beyond the array stands for its end; without associativity max_right may return one, see C73_past_end. *)
Definition max_right_any {S} (e : S) (op : S -> S -> S) (a : list S) (l : nat) (f : S -> bool) (r : nat) : Prop :=
  l <= r /\ (r <= length a \/ r + 2 <= 2 * length a) /\ (exists x, brackets e op (slice a l r) x /\ f x = true) /\
  (r <> length a -> exists y, brackets e op (slice a l (r + 1)) y /\ f y = false).
Definition min_left_any {S} (e : S) (op : S -> S -> S) (a : list S) (r : nat) (f : S -> bool) (l : nat) : Prop :=
  l <= r /\ (exists x, brackets e op (slice a l r) x /\ f x = true) /\
  (0 < l -> exists y, brackets e op (slice a (l - 1) r) y /\ f y = false).
