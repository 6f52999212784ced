(** What de! is to print: one line with the arguments in order.  No reference to the macro's expansion. *)
From Verif Require Import Prelude DebugModel.

(** One argument shown: " source = value" *)
Definition shown {S} (e : expr S) (v : ex_ty e) : text := ([32] ++ ex_src e ++ [32; 61; 32] ++ ex_show e v)%Z.

(** Evaluating es from left to right, each once, from s: what reaches stderr (what an argument itself writes comes before its value),
    the final state, and whether the end was reached.  The first argument that unwinds ends it. *)
Inductive shows {S} : list (expr S) -> S -> text -> S -> bool -> Prop :=
| sh_nil s : shows [] s [] s true
| sh_cons e es s s1 o v t s2 b : ex_eval e s = Ok (s1, o, Some v) -> shows es s1 t s2 b -> shows (e :: es) s (o ++ shown e v ++ t) s2 b
| sh_stop e es s s1 o : ex_eval e s = Ok (s1, o, None) -> shows (e :: es) s o s1 false.

(** The decimal numeral of n: digits, no superfluous zero. *)
Definition numeral_of (n : Z) (t : text) : Prop :=
  Forall (fun c => 48 <= c <= 57)%Z t /\ foldl (fun a c => 10 * a + (c - 48))%Z 0%Z t = n /\ t <> [] /\ (head t = Some 48%Z -> t = [48%Z]).
