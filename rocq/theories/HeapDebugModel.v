(** Derived Debug of MinHeap (min_heap.rs:3), over the array of BinHeapModel.v.  The parts of core::fmt and alloc that the derive uses
    (DebugTuple, DebugList, PadAdapter, Debug of BinaryHeap and Reverse) follow their published source.  Texts are lists of bytes;
    show and show_alt are what {:?} and {:#?} print for one element. *)
From Coq Require Import Ascii String.
From Verif Require Import Prelude HeapModel.

Definition txt (s : string) : list Z := map (fun c => Z.of_nat (nat_of_ascii c)) (list_ascii_of_string s).
Definition nl : list Z := [10%Z].

(** DebugTuple with one field, {:?} *)
Definition tuple_plain (name : string) (field : list Z) : list Z := txt name ++ txt "(" ++ field ++ txt ")".
(** DebugList, {:?}; state: the text so far and has_fields *)
Definition list_entry (st : list Z * bool) (item : list Z) : list Z * bool := (st.1 ++ (if st.2 then txt ", " else []) ++ item, true).
Definition list_plain (items : list (list Z)) : list Z := (foldl list_entry (txt "[", false) items).1 ++ txt "]".

(** PadAdapter: four spaces in front of every line; on: at the start of a line *)
Fixpoint pad (on : bool) (s : list Z) : list Z :=
  match s with
  | [] => []
  | c :: s => (if on then txt "    " else []) ++ c :: pad (c =? 10)%Z s
  end.
(** DebugTuple with one field and DebugList, {:#?} *)
Definition tuple_alt (name : string) (field : list Z) : list Z := txt name ++ txt "(" ++ nl ++ pad true (field ++ txt "," ++ nl) ++ txt ")".
Definition list_alt_entry (st : list Z * bool) (item : list Z) : list Z * bool := (st.1 ++ (if st.2 then [] else nl) ++ pad true (item ++ txt "," ++ nl), true).
Definition list_alt (items : list (list Z)) : list Z := (foldl list_alt_entry (txt "[", false) items).1 ++ txt "]".

(** min_heap.rs:3  format!("{:?}", h) and format!("{:#?}", h); h is the array in memory order *)
Definition mh_debug {T} (show : T -> list Z) (h : list (reverse T)) : list Z :=
  tuple_plain "MinHeap" (list_plain (map (fun x => tuple_plain "Reverse" (show (rev_get x))) h)).
Definition mh_debug_alt {T} (show_alt : T -> list Z) (h : list (reverse T)) : list Z :=
  tuple_alt "MinHeap" (list_alt (map (fun x => tuple_alt "Reverse" (show_alt (rev_get x))) h)).
