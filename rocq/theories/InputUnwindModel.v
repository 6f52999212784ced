(** src/misc/input.rs with panics that are caught: the code of InputModel.v, advancing the iterator step by step. *)
From Verif Require Import Prelude Unwind IntModel InputSpec InputModel.

(** std SplitWhitespace::next; does not panic *)
Definition inu_next : uw reader (option (list Z)) := fun st => '(o, st) ← in_next st; Ok (st, Some o).
Definition uunwrap {X A} (o : option A) : uw X A := uread (fun _ => runwrap o).

(** input.rs:12-14  read *)
Definition inu_read {V} (parse : list Z -> option V) : uw reader V := o <~ inu_next ;~ w <~ uunwrap o ;~ uunwrap (parse w).
(** input.rs:15-20  checked_read *)
Definition inu_checked_read {V} (parse : list Z -> option V) : uw reader (option V) :=
  o <~ inu_next ;~
  match o with
  | Some x => v <~ uunwrap (parse x) ;~ uret (Some v)
  | None => uret None
  end.
(** input.rs:31-33  bytes *)
Definition inu_bytes : uw reader (list Z) := o <~ inu_next ;~ w <~ uunwrap o ;~ uret (concat (map utf8 w)).
(** input.rs:34-36  chars *)
Definition inu_chars : uw reader (list Z) := o <~ inu_next ;~ w <~ uunwrap o ;~ uret w.
(** input.rs:37-39  vec; the items read so far are dropped when it unwinds *)
Definition inu_vec {V} (parse : list Z -> option V) (n : nat) : uw reader (list V) :=
  ufor (range 0 n) (fun _ acc => v <~ inu_read parse ;~ uret (acc ++ [v])) [].

(** One call. *)
Definition inu_step {V} (o : in_op V) : uw reader (in_out V) :=
  match o with
  | InRead parse => v <~ inu_read parse ;~ uret (OutVal v)
  | InChecked parse => v <~ inu_checked_read parse ;~ uret (OutOpt v)
  | InBytes => v <~ inu_bytes ;~ uret (OutBytes v)
  | InChars => v <~ inu_chars ;~ uret (OutChars v)
  | InVec parse n => v <~ inu_vec parse n ;~ uret (OutVec v)
  end.
