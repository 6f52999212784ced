(** Model of src/misc/debug.rs: the macros debug_single! and de!.  Text is a list of bytes.
    A computation takes the state of the program to its new state, what it wrote to stderr, and its value, None when it unwound.
    The message of a panic is not part of the text. *)
From Verif Require Import Prelude ModIntModel.

Notation text := (list Z).
Definition pw (S A : Type) : Type := S -> res (S * text * option A).

Definition pret {S A} (a : A) : pw S A := fun s => Ok (s, [], Some a).
(** `a ; b`: unwinding in a skips b; what was written stays. *)
Definition pbind {S A B} (m : pw S A) (k : A -> pw S B) : pw S B :=
  fun s => '(s, o, a) ← m s;
           match a with
           | Some a => '(s, o', b) ← k a s; Ok (s, o ++ o', b)
           | None => Ok (s, o, None)
           end.
(** std: eprint! *)
Definition eprint {S} (t : text) : pw S unit := fun s => Ok (s, t, Some tt).

(** An argument of the macros: its source text, its value's output under {:?}, its evaluation. *)
Record expr (S : Type) : Type := Expr { ex_ty : Type; ex_src : text; ex_show : ex_ty -> text; ex_eval : pw S ex_ty }.
Arguments Expr {S} _ _ _ _.
Arguments ex_ty {S} _.
Arguments ex_src {S} _.
Arguments ex_show {S} _ _.
Arguments ex_eval {S} _ _.

(** debug.rs:1-11  debug_single!: match $val { tmp => { eprint!(" {} = {:?}", stringify!($val), &tmp); tmp } } *)
Definition debug_single {S} (e : expr S) : pw S (ex_ty e) :=
  pbind (ex_eval e) (fun tmp => pbind (eprint ([32] ++ ex_src e ++ [32; 61; 32] ++ ex_show e tmp)%Z) (fun _ => pret tmp)).

(** debug.rs:21  the tuple of the debug_single!s, evaluated from left to right and dropped *)
Fixpoint debug_tuple {S} (es : list (expr S)) : pw S unit :=
  match es with
  | [] => pret tt
  | e :: es => pbind (debug_single e) (fun _ => debug_tuple es)
  end.

(** std: line!() under {} *)
Definition line_text (line : Z) : text := u32_fmt 10 line [].

(** debug.rs:13-24  de! with debug assertions: without arguments, and with *)
Definition de_empty {S} (line : Z) : pw S unit := eprint ([35] ++ line_text line ++ [10])%Z.
Definition de_dev {S} (line : Z) (es : list (expr S)) : pw S unit :=
  pbind (eprint ([35] ++ line_text line)%Z) (fun _ => pbind (debug_tuple es) (fun _ => eprint [10]%Z)).

(** debug.rs:26-30  de! without debug assertions; called without arguments it does not compile *)
Definition de_release {S} (es : list (expr S)) : pw S unit := pret tt.
