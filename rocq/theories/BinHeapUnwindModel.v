(** The algorithms of BinHeapModel.v (std::collections::BinaryHeap, wrapped by min_heap.rs) over comparisons that may panic or act on a
    state of their own, with the memory a panic leaves behind.  Not code of /repo, except for mhu_step. *)
From Verif Require Import Prelude HeapModel BinHeapModel Unwind.

Section BinHeap.
  Context {W A : Type} (cmpU : A -> A -> uw W comparison).
  (** The state of the comparisons and the array. *)
  Local Notation mem := (W * list A)%type.
  (** A call of cmp: it reaches only its own state. *)
  Definition call_u (a b : A) : uw mem comparison := fun s => '(w, o) ← cmpU a b s.1; Ok ((w, s.2), o).
  Definition le_u (a b : A) : uw mem bool := o <~ call_u a b ;~ uret (match o with Gt => false | _ => true end).
  Definition ge_u (a b : A) : uw mem bool := o <~ call_u a b ;~ uret (match o with Lt => false | _ => true end).
  Definition lt_u (a b : A) : uw mem bool := o <~ call_u a b ;~ uret (match o with Lt => true | _ => false end).
  Definition at_u (pos : nat) : uw mem A := uread (fun s => vget s.2 pos).
  Definition put_u (pos : nat) (x : A) : uw mem unit := uwrite (fun s => d ← vset s.2 pos x; Ok (s.1, d)).
  (** m while the hole is at pos: unwinding drops the hole, which writes elt back (impl Drop for Hole) *)
  Definition hole_u {B} (elt : A) (pos : nat) (m : uw mem B) : uw mem B :=
    fun s => '(s, o) ← m s; match o with Some b => Ok (s, Some b) | None => '(s, _) ← put_u pos elt s; Ok (s, None) end.

  (** sift_up(0, pos) *)
  Definition up_step_u (elt : A) (pos : nat) : uw mem (nat + unit) :=
    if 0 <? pos then
      p <~ at_u ((pos - 1) / 2) ;~
      b <~ hole_u elt pos (le_u elt p) ;~
      (if b : bool then put_u pos elt ;;~ uret (inr tt) else put_u pos p ;;~ uret (inl ((pos - 1) / 2)))
    else put_u pos elt ;;~ uret (inr tt).
  Definition sift_up_u (pos : nat) : uw mem unit := elt <~ at_u pos ;~ uloop (S pos) (up_step_u elt) pos.

  (** sift_down_range(pos, end) *)
  Definition down_step_u (elt : A) (last pos : nat) : uw mem (nat + unit) :=
    let child := 2 * pos + 1 in
    if child <=? last - 2 then
      a <~ at_u child ;~
      b <~ at_u (child + 1) ;~
      t <~ hole_u elt pos (le_u a b) ;~
      (let child := if t : bool then child + 1 else child in
       x <~ at_u child ;~
       t <~ hole_u elt pos (ge_u elt x) ;~
       (if t : bool then put_u pos elt ;;~ uret (inr tt) else put_u pos x ;;~ uret (inl child)))
    else if child =? last - 1 then
      x <~ at_u child ;~
      t <~ hole_u elt pos (lt_u elt x) ;~
      (if t : bool then put_u pos x ;;~ put_u child elt ;;~ uret (inr tt) else put_u pos elt ;;~ uret (inr tt))
    else put_u pos elt ;;~ uret (inr tt).
  Definition sift_down_range_u (pos last : nat) : uw mem unit := elt <~ at_u pos ;~ uloop (S last) (down_step_u elt last) pos.

  (** sift_down_to_bottom(0) *)
  Definition bottom_step_u (elt : A) (last pos : nat) : uw mem (nat + nat) :=
    let child := 2 * pos + 1 in
    if child <=? last - 2 then
      a <~ at_u child ;~
      b <~ at_u (child + 1) ;~
      t <~ hole_u elt pos (le_u a b) ;~
      (let child := if t : bool then child + 1 else child in
       x <~ at_u child ;~
       put_u pos x ;;~ uret (inl child))
    else if child =? last - 1 then x <~ at_u child ;~ put_u pos x ;;~ uret (inr child)
    else uret (inr pos).
  Definition sift_down_to_bottom_u : uw mem unit :=
    last <~ uread (fun s => Ok (length s.2)) ;~
    elt <~ at_u 0 ;~
    pos <~ uloop (S last) (bottom_step_u elt last) 0 ;~
    put_u pos elt ;;~
    sift_up_u pos.

  (** push: the element is appended before the first comparison *)
  Definition push_u (x : A) : uw mem unit := fun s => sift_up_u (length s.2) (s.1, s.2 ++ [x]).
  (** pop: the top is moved out before the first comparison, and dropped when the call unwinds *)
  Definition pop_u : uw mem (option A) := fun s =>
    match rev s.2 with
    | [] => Ok (s, Some None)
    | item :: r =>
        match rev r with
        | [] => Ok ((s.1, []), Some (Some item))
        | top :: rest => (sift_down_to_bottom_u ;;~ uret (Some top)) (s.1, item :: rest)
        end
    end.
  (** rebuild *)
  Definition rebuild_u : uw mem unit :=
    len <~ uread (fun s => Ok (length s.2)) ;~
    ufor (rev (seq 0 (len / 2))) (fun n _ => last <~ uread (fun s => Ok (length s.2)) ;~ sift_down_range_u n last) tt.
  (** rebuild_tail(start) *)
  Definition rebuild_tail_u (start : nat) : uw mem unit :=
    len <~ uread (fun s => Ok (length s.2)) ;~
    (if start =? len then uret tt else
     let tail := len - start in
     let better :=
       if start <? tail then true
       else if len <=? 2048 then 2 * len <? tail * Nat.log2 start
       else 2 * len <? tail * 11 in
     if better then rebuild_u else ufor (range start len) (fun i _ => sift_up_u i) tt).
  (** append: the elements of the shorter one are moved before the first comparison, the other one is empty then; result: its array *)
  Definition append_u (other : list A) : uw mem (list A) := fun s =>
    let '(data, other) := if length s.2 <? length other then (other, s.2) else (s.2, other) in
    (rebuild_tail_u (length data) ;;~ uret []) (s.1, data ++ other).
End BinHeap.

(** min_heap.rs:10-50 on it; append takes a second heap with any array. *)
Definition rev_u {W T} (cmpU : T -> T -> uw W comparison) (a b : reverse T) : uw W comparison := cmpU (rev_get b) (rev_get a).
Definition mhu_step {W T} (cmpU : T -> T -> uw W comparison) (o : mh_op T) : uw (W * list (reverse T)) (mh_out T) :=
  match o with
  | MhPush x => push_u (rev_u cmpU) (Reverse x) ;;~ uret MhUnit
  | MhPop => r <~ pop_u (rev_u cmpU) ;~ uret (MhOpt (match r with Some x => Some (rev_get x) | None => None end))
  | MhPeek => uread (fun s => Ok (MhOpt (match bin_peek s.2 with Some x => Some (rev_get x) | None => None end)))
  | MhLen => uread (fun s => Ok (MhNum (length s.2)))
  | MhAppend xs => other <~ append_u (rev_u cmpU) (map Reverse xs) ;~ uret (MhNum (length other))
  | MhIsEmpty => uread (fun s => Ok (MhBool (length s.2 =? 0)))
  | MhClear => fun s => Ok ((s.1, []), Some MhUnit)
  end.
