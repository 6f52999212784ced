(** Model of src/string/aho_corasick.rs.  The constants OFFSET and N are parameters off and N of every function;
    bytes and usize values are naturals (no value exceeds the number of nodes or the number of inserts). *)
From Verif Require Import Prelude UtilModel.

(** aho_corasick.rs:1-7  struct Node *)
Record node := Node { nd_back : nat; nd_end : option nat; nd_nmatches : nat; nd_output : option nat; nd_next : list nat }.

(** aho_corasick.rs:10-18  Node::new *)
Definition node_new (N : nat) : node := Node 0 None 0 None (replicate N 0).
Definition with_next (x : node) (l : list nat) : node := Node (nd_back x) (nd_end x) (nd_nmatches x) (nd_output x) l.

(** aho_corasick.rs:21-24  struct AhoCorasick *)
Record aho := Aho { ah_n : nat; ah_nodes : list node }.

Section Aho.
  Context (off N : nat).

  (** c - OFFSET on u8: overflow panics *)
  Definition letter (c : nat) : res nat := nsub c off.

  (** aho_corasick.rs:27-32  new *)
  Definition aho_new (n : nat) : aho := Aho n [node_new N].

  (** aho_corasick.rs:46-53  body of the loop of insert; state (nodes, p) *)
  Definition insert_step (c : nat) (st : list node * nat) : res (list node * nat) :=
    let '(nodes, p) := st in
    idx ← letter c;
    x ← vget nodes p;
    y ← vget (nd_next x) idx;
    nodes ← (if y =? 0 then
               l ← vset (nd_next x) idx (length nodes);
               nodes ← vset nodes p (with_next x l);
               Ok (nodes ++ [node_new N])
             else Ok nodes);
    x ← vget nodes p;
    q ← vget (nd_next x) idx;
    Ok (nodes, q).

  (** aho_corasick.rs:43-56  insert *)
  Definition aho_insert (a : aho) (s : list nat) (i : nat) : res aho :=
    rassert (negb (length s =? 0)) ;;
    st ← rfor s insert_step (ah_nodes a, 0);
    let '(nodes, p) := st in
    x ← vget nodes p;
    nodes ← vset nodes p (Node (nd_back x) (Some i) (nd_nmatches x + 1) (nd_output x) (nd_next x));
    Ok (Aho (ah_n a) nodes).

  (** aho_corasick.rs:66-80  body of the for loop of build; state (nodes, q) *)
  Definition build_edge (u i : nat) (st : list node * list nat) : res (list node * list nat) :=
    let '(nodes, q) := st in
    x ← vget nodes u;
    b ← vget nodes (nd_back x);
    fail ← vget (nd_next b) i;
    v ← vget (nd_next x) i;
    if v =? 0 then
      l ← vset (nd_next x) i fail;
      nodes ← vset nodes u (with_next x l);
      Ok (nodes, q)
    else
      y ← vget nodes v;
      nodes ← vset nodes v (Node fail (nd_end y) (nd_nmatches y) (nd_output y) (nd_next y));
      z ← vget nodes fail;
      y ← vget nodes v;
      let o := match nd_end z with Some _ => Some fail | None => nd_output z end in
      nodes ← vset nodes v (Node (nd_back y) (nd_end y) (nd_nmatches y) o (nd_next y));
      Ok (nodes, q ++ [v]).

  (** aho_corasick.rs:65-81  one turn of the while loop of build *)
  Definition build_step (st : list node * list nat) : res ((list node * list nat) + list node) :=
    let '(nodes, q) := st in
    match q with
    | [] => Ok (inr nodes)
    | u :: q => st ← rfor (range 0 N) (build_edge u) (nodes, q); Ok (inl st)
    end.

  (** aho_corasick.rs:58-82  build; the while loop is bounded by fuel *)
  Definition build_fuel (fuel : nat) (a : aho) : res aho :=
    q ← rfor (range 0 N) (fun i q =>
          x ← vget (ah_nodes a) 0;
          v ← vget (nd_next x) i;
          Ok (if negb (v =? 0) then q ++ [v] else q)) [];
    nodes ← rloop fuel build_step (ah_nodes a, q);
    Ok (Aho (ah_n a) nodes).
  (** Every node enters the queue at most once in the first build. *)
  Definition aho_build (a : aho) : res aho := build_fuel (S (length (ah_nodes a))) a.

  (** The calls insert(s, i) in order. *)
  Definition aho_inserts (a : aho) (ins : list (list nat * nat)) : res aho := rfor ins (fun x a => aho_insert a x.1 x.2) a.

  (** aho_corasick.rs:34-41  from *)
  Definition aho_from (patterns : list (list nat)) : res aho :=
    a ← rfor (range 0 (length patterns)) (fun i a => s ← vget patterns i; aho_insert a s i) (aho_new (length patterns));
    aho_build a.

  (** aho_corasick.rs:90, 100, 117  p = self.nodes[p].next[(c - OFFSET) as usize] *)
  Definition aho_go (a : aho) (p c : nat) : res nat :=
    x ← vget (ah_nodes a) p;
    idx ← letter c;
    vget (nd_next x) idx.

  (** aho_corasick.rs:84-94  find *)
  Definition aho_find (a : aho) (text : list nat) : res (list (option nat)) :=
    st ← rfor text (fun c st =>
          p ← aho_go a st.2 c;
          x ← vget (ah_nodes a) p;
          Ok (st.1 ++ [nd_end x], p)) ([], 0);
    Ok st.1.

  (** aho_corasick.rs:105-108 and 122-125  one turn of the while loop along the outputs; state (acc, idx);
      the body of the loop is f *)
  Definition chain_step {A} (a : aho) (f : nat -> A -> res A) (st : A * option nat) : res ((A * option nat) + A) :=
    let '(acc, idx) := st in
    match idx with
    | None => Ok (inr acc)
    | Some x =>
        nd ← vget (ah_nodes a) x;
        k ← runwrap (nd_end nd);
        acc ← f k acc;
        Ok (inl (acc, nd_output nd))
    end.
  (** aho_corasick.rs:101-108 and 118-125  what is done at node p *)
  Definition visit {A} (a : aho) (f : nat -> A -> res A) (p : nat) (acc : A) : res A :=
    x ← vget (ah_nodes a) p;
    acc ← (match nd_end x with Some k => f k acc | None => Ok acc end);
    rloop (S (length (ah_nodes a))) (chain_step a f) (acc, nd_output x).

  (** aho_corasick.rs:96-111  find_all; the vector of empty vectors is filled from left to right *)
  Definition aho_find_all (a : aho) (text : list nat) : res (list (list nat)) :=
    st ← rfor text (fun c st =>
          p ← aho_go a st.2 c;
          l ← visit a (fun k l => Ok (l ++ [k])) p [];
          Ok (st.1 ++ [l], p)) ([], 0);
    Ok st.1.

  (** aho_corasick.rs:113-128  find_cnt *)
  Definition aho_find_cnt (a : aho) (text : list nat) : res (list nat) :=
    st ← rfor text (fun c st =>
          p ← aho_go a st.2 c;
          cnt ← visit a (fun k cnt => x ← vget cnt k; vset cnt k (x + 1)) p st.1;
          Ok (cnt, p)) (replicate (ah_n a) 0, 0);
    Ok st.1.
End Aho.
