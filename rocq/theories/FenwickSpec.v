(** What a FenwickTree user relies on: a plain array with point additions. *)
From Verif Require Import Prelude ArraySpec.

Inductive fw_op (T U : Type) :=
| FwAdd (i : nat) (u : U)
| FwPref (i : nat)
| FwSum (l r : nat).
Arguments FwAdd {T U}. Arguments FwPref {T U}. Arguments FwSum {T U}.

Inductive fw_out (T : Type) :=
| FwUnit
| FwVal (x : T).
Arguments FwUnit {T}. Arguments FwVal {T}.

(** `data[i] += u` on the plain array, nothing for i out of range;
    pref(i) = data[0] + ... + data[i-1];  sum(l,r) = pref(r) - pref(l). *)
Definition fw_spec_step {T U} (zero : T) (add : T -> T -> T) (sub : T -> T -> T) (addu : T -> U -> T)
  (a : list T) (o : fw_op T U) : res (list T * fw_out T) :=
  match o with
  | FwAdd i u => Ok (match a !! i with Some x => <[i := addu x u]> a | None => a end, FwUnit)
  | FwPref i => if i <=? length a then Ok (a, FwVal (mprod zero add (slice a 0 i))) else Panic
  | FwSum l r =>
      if (l <=? length a) && (r <=? length a)
      then Ok (a, FwVal (sub (mprod zero add (slice a 0 r)) (mprod zero add (slice a 0 l))))
      else Panic
  end.

(** The prefix-sum array of the documentation: sum[i] = data[0] + ... + data[i]. *)
Definition prefix_sum {T} (zero : T) (add : T -> T -> T) (a : list T) (i : nat) : T :=
  mprod zero add (slice a 0 (i + 1)).
