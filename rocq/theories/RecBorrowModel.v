(** src/misc/recursive_function.rs again, with a log of the exclusive references `&mut F` to the closure: one is made by
    `&mut *self.f.get()` in call (line 38) and is in use until the closure returns or unwinds, because the closure is run
    through it (FnMut::call_mut borrows the closure for the whole call).
    The reference `self` handed to the closure covers the same bytes; it is not counted. *)
From Verif Require Import Prelude RecModel RecBorrowSpec.

Section rec.
  Context {A O St : Type}.

  (** Running a body; the log of its recursive calls, in order. *)
  Fixpoint exec_log (rec : A -> St -> res (O * St) * list bevent) (c : code A O St) : res (O * St) * list bevent :=
    match c with
    | Done r => (r, [])
    | Rec a s k =>
        match rec a s with
        | (Ok (o, s), l) => let '(r, l') := exec_log rec (k o s) in (r, l ++ l')
        | (Panic, l) => (Panic, l)
        | (Diverge, l) => (Diverge, l)
        end
    end.

  (** recursive_function.rs:37-39  call *)
  Fixpoint call_log (f : A -> St -> code A O St) (fuel : nat) (a : A) (s : St) : res (O * St) * list bevent :=
    match fuel with
    | 0 => (Diverge, [])
    | S fuel => let '(r, l) := exec_log (call_log f fuel) (f a s) in (r, Taken :: l ++ [Dropped])
    end.
End rec.
