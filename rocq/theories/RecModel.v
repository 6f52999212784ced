(** Model of src/misc/recursive_function.rs.
    The macro is instantiated for 0 to 9 arguments; the arguments are one tuple here.  Not modelled: that the closure is
    reached through UnsafeCell, so that a recursive call runs while the outer `&mut F` is alive. *)
From Verif Require Import Prelude.

Section rec.
  Context {A O St : Type}.

  (** The body of a closure, at a point of its execution: finished with a result (or a panic), or about to make a
      recursive call with argument a.  The captured variables have the values s; the rest of the body is k. *)
  Inductive code := Done (r : res (O * St)) | Rec (a : A) (s : St) (k : O -> St -> code).

  (** Running a body whose recursive calls are done by rec. *)
  Fixpoint exec (rec : A -> St -> res (O * St)) (c : code) : res (O * St) :=
    match c with
    | Done r => r
    | Rec a s k => '(o, s) ← rec a s; exec rec (k o s)
    end.

  (** recursive_function.rs:37-39  call: the closure is applied to self and the arguments.  The depth of the recursion
      is bounded by fuel. *)
  Fixpoint call (f : A -> St -> code) (fuel : nat) (a : A) (s : St) : res (O * St) :=
    match fuel with
    | 0 => Diverge
    | S fuel => exec (call f fuel) (f a s)
    end.
End rec.
Arguments code : clear implicits.
