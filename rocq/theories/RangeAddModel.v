(** Client code: range additions and range sums with two FenwickTrees. *)
From Verif Require Import Prelude FenwickSpec FenwickModel.

Section RangeAdd.
  (** The operators of the number type, and its value of an index. *)
  Context {T : Type} (zero : T) (add mul sub : T -> T -> T) (opp : T -> T) (num : nat -> T).

  (** Two FenwickTree::new(n): differences of neighbours, and differences times index. *)
  Record ranger := Ranger { ra_d : fenwick T; ra_i : fenwick T }.
  Definition ra_new (n : nat) : ranger := Ranger (fw_new zero n) (fw_new zero n).
  (** d.add(l, x); d.add(r, -x); i.add(l, x * l); i.add(r, -(x * r))  (fenwick_tree.rs:49-59; at r = n nothing is added) *)
  Definition ra_add (t : ranger) (l r : nat) (x : T) : res ranger :=
    d ← fw_add add (ra_d t) l x;
    d ← fw_add add d r (opp x);
    i ← fw_add add (ra_i t) l (mul x (num l));
    i ← fw_add add i r (opp (mul x (num r)));
    Ok (Ranger d i).
  (** d.pref(k) * k - i.pref(k)  (fenwick_tree.rs:39-46) *)
  Definition ra_pref (t : ranger) (k : nat) : res T :=
    a ← fw_pref zero add (ra_d t) k;
    b ← fw_pref zero add (ra_i t) k;
    Ok (sub (mul a (num k)) b).
  Definition ra_sum (t : ranger) (l r : nat) : res T := b ← ra_pref t r; a ← ra_pref t l; Ok (sub b a).
  (** d.pref(k + 1) *)
  Definition ra_get (t : ranger) (k : nat) : res T := fw_pref zero add (ra_d t) (k + 1).
End RangeAdd.
Arguments ranger : clear implicits.
Arguments Ranger {T}.

Inductive ra_op (T : Type) := RaAdd (l r : nat) (x : T) | RaSum (l r : nat) | RaGet (k : nat).
Arguments RaAdd {T}. Arguments RaSum {T}. Arguments RaGet {T}.
Definition ra_step {T} (zero : T) (add mul sub : T -> T -> T) (opp : T -> T) (num : nat -> T) (t : ranger T) (o : ra_op T) : res (ranger T * option T) :=
  match o with
  | RaAdd l r x => t ← ra_add add mul opp num t l r x; Ok (t, None)
  | RaSum l r => x ← ra_sum zero add mul sub num t l r; Ok (t, Some x)
  | RaGet k => x ← ra_get zero add t k; Ok (t, Some x)
  end.
