(** The texts, by their shape. *)
From Coq Require Import Ascii String.
From Verif Require Import Prelude HeapDebugModel.

(** The elements, separated by ", ". *)
Inductive listed : list (list Z) -> list Z -> Prop :=
| listed_nil : listed [] []
| listed_one x : listed [x] x
| listed_more x y l t : listed (y :: l) t -> listed (x :: y :: l) (x ++ txt ", " ++ t).
Definition one_line (s : list Z) : Prop := ~ In 10%Z s.
(** Lines, each ended. *)
Definition lines (ls : list (list Z)) : list Z := concat (map (fun l => l ++ nl) ls).
