(** A client: Huffman's algorithm with MinHeap (data_structure/min_heap.rs).  Not code of /repo. *)
From Verif Require Import Prelude IntModel HeapModel.
Open Scope Z_scope.

Section Huffman.
  Context (B : binheap (reverse Z)).
  (** let Some(a) = h.pop() else { break }; let Some(b) = h.pop() else { break }; total += a + b; h.push(a + b); (u64) *)
  Definition huff_step (s : Z * bh B) : res (Z * bh B + Z) :=
    let '(total, h) := s in
    match mh_pop B h with
    | (None, _) => Ok (inr total)
    | (Some a, h) =>
        match mh_pop B h with
        | (None, _) => Ok (inr total)
        | (Some b, h) =>
            s ← iadd u64 a b;
            total ← iadd u64 total s;
            Ok (inl (total, mh_push B h s))
        end
    end.
  (** let mut h = MinHeap::new(); for w in ws { h.push(w); } let mut total = 0; the loop above; total *)
  Definition huffman (ws : list Z) : res Z := rloop (S (length ws)) huff_step (0, fold_left (mh_push B) ws (mh_new B)).
End Huffman.
Close Scope Z_scope.
