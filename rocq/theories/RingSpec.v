(** First in, first out. *)
From Verif Require Import Prelude RingModel.

Section Fifo.
  Context {A : Type}.
  (** The values pushed, and the answers Some of a list of answers. *)
  Definition pushed (ops : list (q_op A)) : list A := omap (fun o => match o with QPush x => Some x | QPop => None end) ops.
  Definition pops (ops : list (q_op A)) : nat := length (omap (fun o => match o with QPop => Some tt | QPush _ => None end) ops).
  Definition popped (outs : list (option A)) : list A := omap id outs.
  (** The answers outs of the pops in ops: the j-th pop answers the next value not yet popped, None if there is none at that time. *)
  Definition fifo (ops : list (q_op A)) (outs : list (option A)) : Prop :=
    length outs = pops ops /\
    forall ops1 ops2, ops = ops1 ++ QPop :: ops2 ->
      outs !! pops ops1 = Some (pushed ops1 !! length (popped (firstn (pops ops1) outs))).
End Fifo.
