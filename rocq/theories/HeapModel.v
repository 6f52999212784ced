(** Model of src/data_structure/min_heap.rs over any heap meeting the documented contract of
    std::collections::BinaryHeap. *)
From Coq Require Import Sorting.Sorted.
From Verif Require Import Prelude.

(** std::collections::BinaryHeap<A>: its operations ... *)
Record binheap (A : Type) := BinHeap {
  bh : Type;
  bh_new : bh;
  bh_push : bh -> A -> bh;
  bh_pop : bh -> option (A * bh);
  bh_peek : bh -> option A;
  bh_len : bh -> nat;
  bh_append : bh -> bh -> bh * bh;
  bh_is_empty : bh -> bool;
  bh_clear : bh -> bh;
  bh_into_sorted_vec : bh -> list A }.
Arguments bh {A}. Arguments bh_new {A}. Arguments bh_push {A}. Arguments bh_pop {A}. Arguments bh_peek {A}.
Arguments bh_len {A}. Arguments bh_append {A}. Arguments bh_is_empty {A}. Arguments bh_clear {A}.
Arguments bh_into_sorted_vec {A}.

(** ... and its documented contract (a max-heap for the order [le]): content as a list up to permutation. *)
Record binheap_contract {A} (le : A -> A -> Prop) (B : binheap A) (content : bh B -> list A) : Prop := {
  bc_new : content (bh_new B) = [];
  bc_push : forall h x, content (bh_push B h x) ≡ₚ x :: content h;
  bc_pop_none : forall h, bh_pop B h = None <-> content h = [];
  bc_pop_some : forall h x h', bh_pop B h = Some (x, h') ->
     content h ≡ₚ x :: content h' /\ forall y, y ∈ content h -> le y x;
  bc_peek_none : forall h, bh_peek B h = None <-> content h = [];
  bc_peek_some : forall h x, bh_peek B h = Some x -> x ∈ content h /\ forall y, y ∈ content h -> le y x;
  bc_len : forall h, bh_len B h = length (content h);
  bc_append : forall h1 h2 h1' h2', bh_append B h1 h2 = (h1', h2') ->
     content h1' ≡ₚ content h1 ++ content h2 /\ content h2' = [];
  bc_is_empty : forall h, bh_is_empty B h = true <-> content h = [];
  bc_clear : forall h, content (bh_clear B h) = [];
  bc_into_sorted_vec : forall h, bh_into_sorted_vec B h ≡ₚ content h /\ StronglySorted le (bh_into_sorted_vec B h) }.

(** std::cmp::Reverse<T>: compares the other way round. *)
Inductive reverse (T : Type) := Reverse (x : T).
Arguments Reverse {T}.
Definition rev_get {T} (r : reverse T) : T := let 'Reverse x := r in x.
Definition rev_le {T} (le : T -> T -> Prop) (a b : reverse T) : Prop := le (rev_get b) (rev_get a).

Section MinHeap.
  Context {T : Type} (B : binheap (reverse T)).

  (** min_heap.rs:10-12  new (min_heap.rs:14-16 with_capacity differs only in capacity) *)
  Definition mh_new : bh B := bh_new B.
  (** min_heap.rs:18-20  push *)
  Definition mh_push (h : bh B) (x : T) : bh B := bh_push B h (Reverse x).
  (** min_heap.rs:22-27  pop *)
  Definition mh_pop (h : bh B) : option T * bh B :=
    match bh_pop B h with Some (x, h) => (Some (rev_get x), h) | None => (None, h) end.
  (** min_heap.rs:29-34  peek *)
  Definition mh_peek (h : bh B) : option T :=
    match bh_peek B h with Some x => Some (rev_get x) | None => None end.
  (** min_heap.rs:36-38  len *)
  Definition mh_len (h : bh B) : nat := bh_len B h.
  (** min_heap.rs:40-42  append *)
  Definition mh_append (h other : bh B) : bh B * bh B := bh_append B h other.
  (** min_heap.rs:44-46  is_empty *)
  Definition mh_is_empty (h : bh B) : bool := bh_is_empty B h.
  (** min_heap.rs:48-50  clear *)
  Definition mh_clear (h : bh B) : bh B := bh_clear B h.
  (** min_heap.rs:52-54  into_sorted_vec *)
  Definition mh_into_sorted_vec (h : bh B) : list T := map rev_get (bh_into_sorted_vec B h).
End MinHeap.

(** Calls on one heap; append takes a second heap given by the elements pushed into it. *)
Inductive mh_op (T : Type) :=
| MhPush (x : T) | MhPop | MhPeek | MhLen | MhAppend (xs : list T) | MhIsEmpty | MhClear.
Arguments MhPush {T}. Arguments MhPop {T}. Arguments MhPeek {T}. Arguments MhLen {T}.
Arguments MhAppend {T}. Arguments MhIsEmpty {T}. Arguments MhClear {T}.
Inductive mh_out (T : Type) := MhUnit | MhOpt (o : option T) | MhNum (n : nat) | MhBool (b : bool).
Arguments MhUnit {T}. Arguments MhOpt {T}. Arguments MhNum {T}. Arguments MhBool {T}.

(** min_heap.rs:18-50  one call; append reports the length of the other heap afterwards *)
Definition mh_step {T} (B : binheap (reverse T)) (h : bh B) (o : mh_op T) : res (bh B * mh_out T) :=
  match o with
  | MhPush x => Ok (mh_push B h x, MhUnit)
  | MhPop => let '(r, h) := mh_pop B h in Ok (h, MhOpt r)
  | MhPeek => Ok (h, MhOpt (mh_peek B h))
  | MhLen => Ok (h, MhNum (mh_len B h))
  | MhAppend xs =>
      let other := fold_left (mh_push B) xs (mh_new B) in
      let '(h, other) := mh_append B h other in
      Ok (h, MhNum (mh_len B other))
  | MhIsEmpty => Ok (h, MhBool (mh_is_empty B h))
  | MhClear => Ok (mh_clear B h, MhUnit)
  end.
