(** src/string/aho_corasick.rs again, counting steps: one per byte read by insert, find, find_all and find_cnt, one per turn of the loops
    of build, one per cell of a vector allocated for the answer, and one per index listed or counted. *)
From Verif Require Import Prelude Eff AhoModel GraphWorkModel.

Section Aho.
  Context (off N : nat).

  (** aho_corasick.rs:43-56  insert *)
  Definition aho_insertW (a : aho) (s : list nat) (i : nat) : eff nat aho :=
    elift (rassert (negb (length s =? 0))) ;;*
    st <* efor s (fun c st => tick ;;* elift (insert_step off N c st)) (ah_nodes a, 0) ;*
    let '(nodes, p) := st in
    x <* elift (vget nodes p) ;*
    nodes <* elift (vset nodes p (Node (nd_back x) (Some i) (nd_nmatches x + 1) (nd_output x) (nd_next x))) ;*
    eret (Aho (ah_n a) nodes).

  (** aho_corasick.rs:65-81  one turn of the while loop of build *)
  Definition build_stepW (st : list node * list nat) : eff nat ((list node * list nat) + list node) :=
    let '(nodes, q) := st in
    match q with
    | [] => eret (inr nodes)
    | u :: q => tick ;;* st <* efor (range 0 N) (fun i st => tick ;;* elift (build_edge u i st)) (nodes, q) ;* eret (inl st)
    end.

  (** aho_corasick.rs:58-82  build *)
  Definition aho_buildW (a : aho) : eff nat aho :=
    q <* efor (range 0 N) (fun i q =>
          tick ;;*
          x <* elift (vget (ah_nodes a) 0) ;*
          v <* elift (vget (nd_next x) i) ;*
          eret (if negb (v =? 0) then q ++ [v] else q)) [] ;*
    nodes <* eloop (S (length (ah_nodes a))) build_stepW (ah_nodes a, q) ;*
    eret (Aho (ah_n a) nodes).

  (** The calls insert(s, i) in order. *)
  Definition aho_insertsW (a : aho) (ins : list (list nat * nat)) : eff nat aho := efor ins (fun x a => aho_insertW a x.1 x.2) a.

  (** new(n), then the inserts, then build. *)
  Definition aho_ofW (n : nat) (ins : list (list nat * nat)) : eff nat aho := a <* aho_insertsW (aho_new N n) ins ;* aho_buildW a.

  (** aho_corasick.rs:34-41  from *)
  Definition aho_fromW (patterns : list (list nat)) : eff nat aho :=
    a <* efor (range 0 (length patterns)) (fun i a => s <* elift (vget patterns i) ;* aho_insertW a s i) (aho_new N (length patterns)) ;*
    aho_buildW a.

  (** aho_corasick.rs:84-94  find *)
  Definition aho_findW (a : aho) (text : list nat) : eff nat (list (option nat)) :=
    st <* efor text (fun c st =>
          tick ;;*
          p <* elift (aho_go off a st.2 c) ;*
          x <* elift (vget (ah_nodes a) p) ;*
          eret (st.1 ++ [nd_end x], p)) ([], 0) ;*
    eret st.1.

  (** aho_corasick.rs:105-108 and 122-125  one turn of the while loop along the outputs *)
  Definition chain_stepW {A} (a : aho) (f : nat -> A -> res A) (st : A * option nat) : eff nat ((A * option nat) + A) :=
    let '(acc, idx) := st in
    match idx with
    | None => eret (inr acc)
    | Some x =>
        tick ;;*
        nd <* elift (vget (ah_nodes a) x) ;*
        k <* elift (runwrap (nd_end nd)) ;*
        acc <* elift (f k acc) ;*
        eret (inl (acc, nd_output nd))
    end.
  (** aho_corasick.rs:101-108 and 118-125  what is done at node p *)
  Definition visitW {A} (a : aho) (f : nat -> A -> res A) (p : nat) (acc : A) : eff nat A :=
    x <* elift (vget (ah_nodes a) p) ;*
    acc <* (match nd_end x with Some k => tick ;;* elift (f k acc) | None => eret acc end) ;*
    eloop (S (length (ah_nodes a))) (chain_stepW a f) (acc, nd_output x).

  (** aho_corasick.rs:96-111  find_all *)
  Definition aho_find_allW (a : aho) (text : list nat) : eff nat (list (list nat)) :=
    ticks (length text) ;;*
    st <* efor text (fun c st =>
          tick ;;*
          p <* elift (aho_go off a st.2 c) ;*
          l <* visitW a (fun k l => Ok (l ++ [k])) p [] ;*
          eret (st.1 ++ [l], p)) ([], 0) ;*
    eret st.1.

  (** aho_corasick.rs:113-128  find_cnt *)
  Definition aho_find_cntW (a : aho) (text : list nat) : eff nat (list nat) :=
    ticks (ah_n a) ;;*
    st <* efor text (fun c st =>
          tick ;;*
          p <* elift (aho_go off a st.2 c) ;*
          cnt <* visitW a (fun k cnt => x ← vget cnt k; vset cnt k (x + 1)) p st.1 ;*
          eret (cnt, p)) (replicate (ah_n a) 0, 0) ;*
    eret st.1.
End Aho.
