(** Model of AhoCorasick::insert with the memory a panic leaves behind (src/string/aho_corasick.rs). *)
From Verif Require Import Prelude UtilModel AhoModel Unwind.

Section Aho.
  Context (off N : nat).

  (** aho_corasick.rs:46-53  body of the loop of insert; the memory is nodes, the local variable p.  The subtraction
      c - OFFSET and the index next[idx] come before the writes. *)
  Definition insert_step_uw (c p : nat) : uw (list node) nat :=
    idx <~ uread (fun _ => letter off c) ;~
    x <~ uread (fun nodes => vget nodes p) ;~
    y <~ uread (fun _ => vget (nd_next x) idx) ;~
    (if y =? 0 then
       (uwrite (fun nodes => l ← vset (nd_next x) idx (length nodes); vset nodes p (with_next x l)) ;;~
        uwrite (fun nodes => Ok (nodes ++ [node_new N])))
     else uret tt) ;;~
    (x <~ uread (fun nodes => vget nodes p) ;~
     uread (fun _ => vget (nd_next x) idx)).

  (** aho_corasick.rs:54-55  the marks on the last node: two writes to fields of one node *)
  Definition mark_uw (p i : nat) : uw (list node) unit :=
    uwrite (fun nodes => x ← vget nodes p; vset nodes p (Node (nd_back x) (Some i) (nd_nmatches x) (nd_output x) (nd_next x))) ;;~
    uwrite (fun nodes => x ← vget nodes p; vset nodes p (Node (nd_back x) (nd_end x) (nd_nmatches x + 1) (nd_output x) (nd_next x))).

  (** aho_corasick.rs:43-56  insert *)
  Definition insert_uw (s : list nat) (i : nat) : uw (list node) unit :=
    uread (fun _ => rassert (negb (length s =? 0))) ;;~
    (p <~ ufor s insert_step_uw 0 ;~
     mark_uw p i).

  (** A sequence of insert calls, every panic caught, followed by build (aho_corasick.rs:58-82). *)
  Definition inserts_caught (nodes : list node) (ins : list (list nat * nat)) : res (list node) :=
    rfor ins (fun x nodes => caught (insert_uw x.1 x.2) nodes) nodes.
  Definition aho_of_caught (n : nat) (ins : list (list nat * nat)) : res aho :=
    nodes ← inserts_caught (ah_nodes (aho_new N n)) ins;
    aho_build N (Aho n nodes).
End Aho.
