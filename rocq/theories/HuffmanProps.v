(** Huffman's algorithm with MinHeap (C145). *)
From Verif Require Import Prelude IntModel HeapModel HeapSpec HeapList HeapProps HeapUseModel HeapUseProof HuffmanModel HuffmanSpec HuffmanProof.
Open Scope Z_scope.

(** Over any heap meeting the contract of BinaryHeap, the total is the least number of bits of a prefix code; the u64 additions panic exactly
    if that number does not fit. *)
Theorem C145_huffman (B : binheap (reverse Z)) content : binheap_contract (rev_le Z.le) B content -> forall ws, ws <> [] -> Forall (fun w => 0 <= w) ws ->
  exists c, shortest ws c /\ huffman B ws = if c <=? 2 ^ 64 - 1 then Ok c else Panic.
Proof. intros C. exact (huffman_ok B content C). Qed.
Print Assumptions C145_huffman.

Theorem C145_empty (B : binheap (reverse Z)) content : binheap_contract (rev_le Z.le) B content -> huffman B [] = Ok 0.
Proof. intros C. exact (huffman_nil B content C). Qed.
Print Assumptions C145_empty.

Example C145_nonvacuous : binheap_contract (rev_le Z.le) zheap (fun h => h) /\ huffman zheap [45; 13; 12; 16; 9; 5] = Ok 224 /\ huffman zheap [7] = Ok 0 /\
  huffman zheap [2 ^ 63; 2 ^ 63] = Panic /\ huffman zheap [2 ^ 63; 2 ^ 63 - 1] = Ok (2 ^ 64 - 1).
Proof. split; [apply zheap_contract|]. split_and!; vm_compute; reflexivity. Qed.
Close Scope Z_scope.
