(** The algorithms of std::collections::BinaryHeap (alloc/src/collections/binary_heap/mod.rs of the Rust standard library), which
    min_heap.rs wraps.  Not code of /repo; written from the published source: the unsafe "hole" is an element kept aside, reads and
    writes through it are checked (Ok shows that they stay in bounds).  Spare capacity is not modelled. *)
From Verif Require Import Prelude HeapModel.

Section BinHeap.
  Context {A : Type} (cmp : A -> A -> comparison).
  (** PartialOrd::{le, ge, lt} from cmp *)
  Definition c_le (a b : A) : bool := match cmp a b with Gt => false | _ => true end.
  Definition c_ge (a b : A) : bool := match cmp a b with Lt => false | _ => true end.
  Definition c_lt (a b : A) : bool := match cmp a b with Lt => true | _ => false end.

  (** sift_up(0, pos) *)
  Definition sift_up (data : list A) (pos : nat) : res (list A) :=
    elt ← vget data pos;
    rloop (S pos) (fun '(data, pos) =>
      if 0 <? pos then
        let parent := (pos - 1) / 2 in
        p ← vget data parent;
        if c_le elt p then data ← vset data pos elt; Ok (inr data)
        else data ← vset data pos p; Ok (inl (data, parent))
      else data ← vset data pos elt; Ok (inr data)) (data, pos).

  (** sift_down_range(pos, end) *)
  Definition sift_down_range (data : list A) (pos last : nat) : res (list A) :=
    elt ← vget data pos;
    rloop (S last) (fun '(data, pos) =>
      let child := 2 * pos + 1 in
      if child <=? last - 2 then
        a ← vget data child;
        b ← vget data (child + 1);
        let child := if c_le a b then child + 1 else child in
        x ← vget data child;
        if c_ge elt x then data ← vset data pos elt; Ok (inr data)
        else data ← vset data pos x; Ok (inl (data, child))
      else if child =? last - 1 then
        x ← vget data child;
        if c_lt elt x then data ← vset data pos x; data ← vset data child elt; Ok (inr data)
        else data ← vset data pos elt; Ok (inr data)
      else data ← vset data pos elt; Ok (inr data)) (data, pos).

  (** sift_down_to_bottom(0): the hole moves to the bottom along the larger children, then up *)
  Definition sift_down_to_bottom (data : list A) : res (list A) :=
    let last := length data in
    elt ← vget data 0;
    '(data, pos) ← rloop (S last) (fun '(data, pos) =>
      let child := 2 * pos + 1 in
      if child <=? last - 2 then
        a ← vget data child;
        b ← vget data (child + 1);
        let child := if c_le a b then child + 1 else child in
        x ← vget data child;
        data ← vset data pos x; Ok (inl (data, child))
      else if child =? last - 1 then
        x ← vget data child;
        data ← vset data pos x; Ok (inr (data, child))
      else Ok (inr (data, pos))) (data, 0);
    data ← vset data pos elt;
    sift_up data pos.

  (** push *)
  Definition bin_push (data : list A) (x : A) : res (list A) := sift_up (data ++ [x]) (length data).
  (** pop: the last element goes to the root *)
  Definition bin_pop (data : list A) : res (option A * list A) :=
    match rev data with
    | [] => Ok (None, [])
    | item :: r =>
        match rev r with
        | [] => Ok (Some item, [])
        | top :: rest => data ← sift_down_to_bottom (item :: rest); Ok (Some top, data)
        end
    end.
  (** peek *)
  Definition bin_peek (data : list A) : option A := data !! 0.
  (** rebuild *)
  Definition bin_rebuild (data : list A) : res (list A) :=
    rfor (rev (seq 0 (length data / 2))) (fun n data => sift_down_range data n (length data)) data.
  (** rebuild_tail(start): sift the new elements up one by one, or rebuild the heap if that is estimated to be cheaper *)
  Definition bin_rebuild_tail (data : list A) (start : nat) : res (list A) :=
    let len := length data in
    if start =? len then Ok data else
    let tail := len - start in
    let better :=
      if start <? tail then true
      else if len <=? 2048 then 2 * len <? tail * Nat.log2 start
      else 2 * len <? tail * 11 in
    if better then bin_rebuild data else rfor (range start len) (fun i data => sift_up data i) data.
  (** append: the shorter one is added to the longer one *)
  Definition bin_append (data other : list A) : res (list A * list A) :=
    let '(data, other) := if length data <? length other then (other, data) else (data, other) in
    data ← bin_rebuild_tail (data ++ other) (length data);
    Ok (data, []).
  (** into_sorted_vec *)
  Definition bin_into_sorted_vec (data : list A) : res (list A) :=
    rfor (rev (range 1 (length data))) (fun last data =>
      a ← vget data 0; b ← vget data last; data ← vset data 0 b; data ← vset data last a;
      sift_down_range data 0 last) data.
End BinHeap.

(** MinHeap on it: min_heap.rs:10-54 with Reverse. *)
Definition rev_cmp {T} (cmp : T -> T -> comparison) (a b : reverse T) : comparison := cmp (rev_get b) (rev_get a).
Definition bin_step {T} (cmp : T -> T -> comparison) (h : list (reverse T)) (o : mh_op T) : res (list (reverse T) * mh_out T) :=
  let c := rev_cmp cmp in
  match o with
  | MhPush x => h ← bin_push c h (Reverse x); Ok (h, MhUnit)
  | MhPop => '(r, h) ← bin_pop c h; Ok (h, MhOpt (match r with Some x => Some (rev_get x) | None => None end))
  | MhPeek => Ok (h, MhOpt (match bin_peek h with Some x => Some (rev_get x) | None => None end))
  | MhLen => Ok (h, MhNum (length h))
  | MhAppend xs =>
      other ← rfor xs (fun x other => bin_push c other (Reverse x)) [];
      '(h, other) ← bin_append c h other;
      Ok (h, MhNum (length other))
  | MhIsEmpty => Ok (h, MhBool (length h =? 0))
  | MhClear => Ok ([], MhUnit)
  end.
Definition bin_sorted {T} (cmp : T -> T -> comparison) (h : list (reverse T)) : res (list T) :=
  l ← bin_into_sorted_vec (rev_cmp cmp) h; Ok (map rev_get l).
