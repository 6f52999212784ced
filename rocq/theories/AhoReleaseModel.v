(** src/string/aho_corasick.rs, src/misc/util.rs and the functions calling util.rs on an empty input, as compiled by
    `cargo build --release`: integer arithmetic wraps.  build and the walk along the outputs are those of AhoModel.v. *)
From Verif Require Import Prelude IntModel UtilModel AhoModel FenwickModel SparseModel LiftModel.

Section Aho.
  Context (off N : nat).

  (** c - OFFSET on u8 *)
  Definition letter_release (c : nat) : nat := Z.to_nat (wrap u8 (Z.of_nat c - Z.of_nat off)).

  (** aho_corasick.rs:46-53  body of the loop of insert; state (nodes, p) *)
  Definition insert_step_release (c : nat) (st : list node * nat) : res (list node * nat) :=
    let '(nodes, p) := st in
    let idx := letter_release c in
    x ← vget nodes p;
    y ← vget (nd_next x) idx;
    nodes ← (if y =? 0 then
               l ← vset (nd_next x) idx (length nodes);
               nodes ← vset nodes p (with_next x l);
               Ok (nodes ++ [node_new N])
             else Ok nodes);
    x ← vget nodes p;
    q ← vget (nd_next x) idx;
    Ok (nodes, q).

  (** aho_corasick.rs:43-56  insert *)
  Definition aho_insert_release (a : aho) (s : list nat) (i : nat) : res aho :=
    rassert (negb (length s =? 0)) ;;
    st ← rfor s insert_step_release (ah_nodes a, 0);
    let '(nodes, p) := st in
    x ← vget nodes p;
    nodes ← vset nodes p (Node (nd_back x) (Some i) (nd_nmatches x + 1) (nd_output x) (nd_next x));
    Ok (Aho (ah_n a) nodes).

  (** new(n), the calls insert(s, i) in order, then build *)
  Definition aho_of_release (n : nat) (ins : list (list nat * nat)) : res aho :=
    a ← rfor ins (fun x a => aho_insert_release a x.1 x.2) (aho_new N n);
    aho_build N a.

  (** aho_corasick.rs:34-41  from *)
  Definition aho_from_release (patterns : list (list nat)) : res aho :=
    a ← rfor (range 0 (length patterns)) (fun i a => s ← vget patterns i; aho_insert_release a s i) (aho_new N (length patterns));
    aho_build N a.

  (** aho_corasick.rs:90, 100, 117  p = self.nodes[p].next[(c - OFFSET) as usize] *)
  Definition aho_go_release (a : aho) (p c : nat) : res nat :=
    x ← vget (ah_nodes a) p;
    vget (nd_next x) (letter_release c).

  (** aho_corasick.rs:84-94  find *)
  Definition aho_find_release (a : aho) (text : list nat) : res (list (option nat)) :=
    st ← rfor text (fun c st =>
          p ← aho_go_release a st.2 c;
          x ← vget (ah_nodes a) p;
          Ok (st.1 ++ [nd_end x], p)) ([], 0);
    Ok st.1.

  (** aho_corasick.rs:96-111  find_all *)
  Definition aho_find_all_release (a : aho) (text : list nat) : res (list (list nat)) :=
    st ← rfor text (fun c st =>
          p ← aho_go_release a st.2 c;
          l ← visit a (fun k l => Ok (l ++ [k])) p [];
          Ok (st.1 ++ [l], p)) ([], 0);
    Ok st.1.

  (** aho_corasick.rs:113-128  find_cnt *)
  Definition aho_find_cnt_release (a : aho) (text : list nat) : res (list nat) :=
    st ← rfor text (fun c st =>
          p ← aho_go_release a st.2 c;
          cnt ← visit a (fun k cnt => x ← vget cnt k; vset cnt k (x + 1)) p st.1;
          Ok (cnt, p)) (replicate (ah_n a) 0, 0);
    Ok st.1.
End Aho.

(** util.rs:1-3  lg: the u32 subtraction wraps *)
Definition lg_release (i : Z) : Z := wrap u32 (wrap u32 (64 - 1) - leading_zeros 64 i).
(** util.rs:5-7  ceil_lg *)
Definition ceil_lg_release (n : Z) : Z := wrap u32 (32 - leading_zeros 32 (saturating_sub n 1)).

(** `1 << i` on usize: the amount is taken modulo 64, the result is cut to 64 bits *)
Definition shl_one_release (i : nat) : nat := 2 ^ (i mod 64).
(** Subtraction of usize *)
Definition usub_release (a b : nat) : nat := Z.to_nat (wrap usize (Z.of_nat a - Z.of_nat b)).

(** fenwick_tree.rs:97-111  partition_point; the loop runs from `usize::BITS - 1 - n.leading_zeros()`, which wraps, down to 0.
    Simplification: the sum `pos + (1 << i)` is a natural (it stays below 2^64 for fewer than 2^63 elements). *)
Definition fw_partition_point_release {T} (zero : T) (add : T -> T -> T) (t : fenwick T) (pred : T -> bool) : res nat :=
  '(pos, sum) ← rfor (rev (range_incl 0 (Z.to_nat (lg_release (Z.of_nat (fw_n t)))))) (fun i '(pos, sum) =>
          let next := pos + shl_one_release i in
          if next <=? fw_n t then
            x ← vget (fw_ary t) (next - 1);
            if pred (add sum x) then Ok (next, add sum x) else Ok (pos, sum)
          else Ok (pos, sum)) (0, zero);
  Ok pos.

(** sparse_table.rs:24-28  the inner loop of from for one row c *)
Definition sp_row_release {T} (op : T -> T -> T) (n c : nat) (data : list (list T)) : res (list (list T)) :=
  rfor (range_incl 0 (usub_release n (shl_one_release c))) (fun i data =>
    x ← vget2 data (c - 1) i;
    y ← vget2 data (c - 1) (i + shl_one_release (c - 1));
    vset2 data c i (op x y)) data.
(** sparse_table.rs:19-33  from; allocation failure is not modelled *)
Definition sp_from_release {T} (v : list T) (init : T) (op : T -> T -> T) : res (list (list T)) :=
  let n := length v in
  let count := Z.to_nat (lg_release (Z.of_nat n)) + 1 in
  let data := replicate count (replicate n init) in
  data ← vset data 0 v;
  rfor (range 1 count) (fun c data => sp_row_release op n c data) data.
(** sparse_table.rs:36-40  get *)
Definition sp_get_release {T} (op : T -> T -> T) (data : list (list T)) (l r : nat) : res T :=
  rassert (l <? r) ;;
  let c := Z.to_nat (lg_release (Z.of_nat (usub_release r l))) in
  x ← vget2 data c l;
  y ← vget2 data c (usub_release r (shl_one_release c));
  Ok (op x y).

(** binary_lifting.rs:12-25  from *)
Definition bl_from_release (g : list (list nat)) (root : nat) : res bl :=
  let n := length g in
  let level := Z.to_nat (lg_release (Z.of_nat n)) + 1 in
  st ← bl_dfs (S n) g root root (BL level (replicate n (replicate level 0)) (replicate n 0) (replicate n 0) (replicate n 0), 0);
  Ok st.1.
