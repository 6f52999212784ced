(** The searches of src/data_structure/{fenwick_tree,segtree,lazy_segtree}.rs with a predicate that is a real closure:
    it may change a state of its own (captured by mutable reference for FnMut, through a Cell or an atomic for Fn),
    panic, or not return.  The predicate is [f : σ -> S -> res (σ * bool)].  The code is that of FenwickModel.v,
    SegtreeModel.v and LazyModel.v with the predicate's state threaded through. *)
From Verif Require Import Prelude UtilModel ArraySpec FenwickModel SegtreeModel LazySpec LazyModel.

Section Fenwick.
  Context {T : Type} (zero : T) (add : T -> T -> T).

  (** fenwick_tree.rs:97-111  partition_point with P: FnMut(&T) -> bool *)
  Definition fw_partition_point_fx {σ} (t : fenwick T) (pred : σ -> T -> res (σ * bool)) (st : σ) : res (σ * nat) :=
    top ← lg (Z.of_nat (fw_n t));
    '(pos, sum, st) ← rfor (rev (range_incl 0 (Z.to_nat top))) (fun i '(pos, sum, st) =>
            let next := pos + 2 ^ i in
            if next <=? fw_n t then
              x ← vget (fw_ary t) (next - 1);
              '(st, b) ← pred st (add sum x);
              if b : bool then Ok (next, add sum x, st) else Ok (pos, sum, st)
            else Ok (pos, sum, st)) (0, zero, st);
    Ok (st, pos).
End Fenwick.

Section Segtree.
  Context {S : Type} (e : S) (op : S -> S -> S).

  (** segtree.rs:95-103  descent inside max_right; result is `l - size` *)
  Definition st_descend_right_fx {σ} (d : list S) (size : nat) (f : σ -> S -> res (σ * bool)) (l : nat) (sm : S)
    (st : σ) : res (σ * nat) :=
    '(st, l) ← rloop (size + 1) (fun '(l, sm, st) =>
           if l <? size then
             let l := 2 * l in
             x ← vget d l;
             let r := op sm x in
             '(st, b) ← f st r;
             if b : bool then Ok (inl (l + 1, r, st)) else Ok (inl (l, sm, st))
           else Ok (inr (st, l))) (l, sm, st);
    r ← nsub l size;
    Ok (st, r).

  (** segtree.rs:89-112  one iteration of the do-while of max_right *)
  Definition st_max_right_step_fx {σ} (d : list S) (n size : nat) (f : σ -> S -> res (σ * bool)) (s : nat * S * σ)
    : res ((nat * S * σ) + (σ * nat)) :=
    let '(l, sm, st) := s in
    l ← strip_even l;
    x ← vget d l;
    '(st, b) ← f st (op sm x);
    if negb b then
      r ← st_descend_right_fx d size f l sm st;
      Ok (inr r)
    else
      let sm := op sm x in
      let l := l + 1 in
      if negb (lowbit l =? l) then Ok (inl (l, sm, st)) else Ok (inr (st, n)).

  (** segtree.rs:78-114  max_right *)
  Definition st_max_right_fx {σ} (t : segtree S) (l : nat) (f : σ -> S -> res (σ * bool)) (st : σ) : res (σ * nat) :=
    rassert (l <=? sg_n t) ;;
    '(st, b) ← f st e;
    rassert b ;;
    if l =? sg_n t then Ok (st, sg_n t)
    else
      rloop (2 * sg_size t + 1) (st_max_right_step_fx (sg_d t) (sg_n t) (sg_size t) f)
            (l + sg_size t, e, st).

  (** segtree.rs:135-143  descent inside min_left; result is `r + 1 - size` *)
  Definition st_descend_left_fx {σ} (d : list S) (size : nat) (f : σ -> S -> res (σ * bool)) (r : nat) (sm : S)
    (st : σ) : res (σ * nat) :=
    '(st, r) ← rloop (size + 1) (fun '(r, sm, st) =>
           if r <? size then
             let r := 2 * r + 1 in
             x ← vget d r;
             let y := op x sm in
             '(st, b) ← f st y;
             if b : bool then r ← nsub r 1; Ok (inl (r, y, st)) else Ok (inl (r, sm, st))
           else Ok (inr (st, r))) (r, sm, st);
    l ← nsub (r + 1) size;
    Ok (st, l).

  (** segtree.rs:128-151  one iteration of the do-while of min_left *)
  Definition st_min_left_step_fx {σ} (d : list S) (size : nat) (f : σ -> S -> res (σ * bool)) (s : nat * S * σ)
    : res ((nat * S * σ) + (σ * nat)) :=
    let '(r, sm, st) := s in
    r ← nsub r 1;
    r ← strip_odd r;
    x ← vget d r;
    '(st, b) ← f st (op x sm);
    if negb b then
      l ← st_descend_left_fx d size f r sm st;
      Ok (inr l)
    else
      let sm := op x sm in
      if negb (lowbit r =? r) then Ok (inl (r, sm, st)) else Ok (inr (st, 0)).

  (** segtree.rs:117-153  min_left *)
  Definition st_min_left_fx {σ} (t : segtree S) (r : nat) (f : σ -> S -> res (σ * bool)) (st : σ) : res (σ * nat) :=
    rassert (r <=? sg_n t) ;;
    '(st, b) ← f st e;
    rassert b ;;
    if r =? 0 then Ok (st, 0)
    else
      rloop (2 * sg_size t + 1) (st_min_left_step_fx (sg_d t) (sg_size t) f)
            (r + sg_size t, e, st).
End Segtree.

(** The lazy tree is searched through `&mut self` and pushes its pending maps while searching, so what a panicking
    predicate leaves behind matters too.  Here the predicate is [g : σ -> S -> σ * option bool]: it always returns
    or unwinds ([None]), and in both cases its own state is kept.  The result is the tree as it is in memory
    afterwards, the state of the closure, and [Some] the returned index or [None] if the call unwound (because the
    predicate did, or by one of the two assertions).  [Panic] of the surrounding [res] is any other panic. *)
Section Lazy.
  Context {S F : Type} (e : S) (op : S -> S -> S) (idm : F) (mapping : F -> S -> S) (comp : F -> F -> F).
  Local Notation push := (lt_push idm mapping comp).

  (** lazy_segtree.rs:187-196  descent inside max_right; the index is `l - size` *)
  Definition lt_descend_right_fx {σ} (size : nat) (g : σ -> S -> σ * option bool) (s : tree S F) (l : nat) (sm : S)
    (st : σ) : res (tree S F * σ * option nat) :=
    '(s, st, ol) ← rloop (size + 1) (fun '(s, l, sm, st) =>
           if l <? size then
             s ← push size s l;
             let l := 2 * l in
             x ← vget s.1 l;
             let r := op sm x in
             match g st r with
             | (st, None) => Ok (inr (s, st, None))
             | (st, Some true) => Ok (inl (s, l + 1, r, st))
             | (st, Some false) => Ok (inl (s, l, sm, st))
             end
           else Ok (inr (s, st, Some l))) (s, l, sm, st);
    match ol with
    | None => Ok (s, st, None)
    | Some l => r ← nsub l size; Ok (s, st, Some r)
    end.

  (** lazy_segtree.rs:182-203  one iteration of the `loop` of max_right *)
  Definition lt_max_right_step_fx {σ} (n size : nat) (g : σ -> S -> σ * option bool) (s : tree S F * nat * S * σ)
    : res ((tree S F * nat * S * σ) + (tree S F * σ * option nat)) :=
    let '(s, l, sm, st) := s in
    l ← strip_even l;
    x ← vget s.1 l;
    match g st (op sm x) with
    | (st, None) => Ok (inr (s, st, None))
    | (st, Some false) =>
        r ← lt_descend_right_fx size g s l sm st;
        Ok (inr r)
    | (st, Some true) =>
        let sm := op sm x in
        let l := l + 1 in
        if lowbit l =? l then Ok (inr (s, st, Some n)) else Ok (inl (s, l, sm, st))
    end.

  (** lazy_segtree.rs:168-205  max_right *)
  Definition lt_max_right_fx {σ} (t : lazytree S F) (l : nat) (g : σ -> S -> σ * option bool) (st : σ)
    : res (lazytree S F * σ * option nat) :=
    if negb (l <=? lt_n t) then Ok (t, st, None)
    else match g st e with
    | (st, None) | (st, Some false) => Ok (t, st, None)
    | (st, Some true) =>
        if l =? lt_n t then Ok (t, st, Some (lt_n t))
        else
          let l := l + lt_size t in
          s ← lt_push_path idm mapping comp (lt_size t) (lt_log t) (lt_d t, lt_lz t) l;
          '(s, st, r) ← rloop (2 * lt_size t + 1) (lt_max_right_step_fx (lt_n t) (lt_size t) g) (s, l, e, st);
          Ok (with_tree t s, st, r)
    end.

  (** lazy_segtree.rs:228-237  descent inside min_left; the index is `r + 1 - size` *)
  Definition lt_descend_left_fx {σ} (size : nat) (g : σ -> S -> σ * option bool) (s : tree S F) (r : nat) (sm : S)
    (st : σ) : res (tree S F * σ * option nat) :=
    '(s, st, or) ← rloop (size + 1) (fun '(s, r, sm, st) =>
           if r <? size then
             s ← push size s r;
             let r := 2 * r + 1 in
             x ← vget s.1 r;
             let y := op x sm in
             match g st y with
             | (st, None) => Ok (inr (s, st, None))
             | (st, Some true) => r ← nsub r 1; Ok (inl (s, r, y, st))
             | (st, Some false) => Ok (inl (s, r, sm, st))
             end
           else Ok (inr (s, st, Some r))) (s, r, sm, st);
    match or with
    | None => Ok (s, st, None)
    | Some r => l ← nsub (r + 1) size; Ok (s, st, Some l)
    end.

  (** lazy_segtree.rs:222-243  one iteration of the `loop` of min_left *)
  Definition lt_min_left_step_fx {σ} (size : nat) (g : σ -> S -> σ * option bool) (s : tree S F * nat * S * σ)
    : res ((tree S F * nat * S * σ) + (tree S F * σ * option nat)) :=
    let '(s, r, sm, st) := s in
    r ← nsub r 1;
    r ← strip_odd r;
    x ← vget s.1 r;
    match g st (op x sm) with
    | (st, None) => Ok (inr (s, st, None))
    | (st, Some false) =>
        l ← lt_descend_left_fx size g s r sm st;
        Ok (inr l)
    | (st, Some true) =>
        let sm := op x sm in
        if lowbit r =? r then Ok (inr (s, st, Some 0)) else Ok (inl (s, r, sm, st))
    end.

  (** lazy_segtree.rs:208-245  min_left *)
  Definition lt_min_left_fx {σ} (t : lazytree S F) (r : nat) (g : σ -> S -> σ * option bool) (st : σ)
    : res (lazytree S F * σ * option nat) :=
    if negb (r <=? lt_n t) then Ok (t, st, None)
    else match g st e with
    | (st, None) | (st, Some false) => Ok (t, st, None)
    | (st, Some true) =>
        if r =? 0 then Ok (t, st, Some 0)
        else
          let r := r + lt_size t in
          q ← nsub r 1;
          s ← lt_push_path idm mapping comp (lt_size t) (lt_log t) (lt_d t, lt_lz t) q;
          '(s, st, l) ← rloop (2 * lt_size t + 1) (lt_min_left_step_fx (lt_size t) g) (s, r, e, st);
          Ok (with_tree t s, st, l)
    end.
End Lazy.

From Verif Require Import EffectSpec.

(** One public call (lazy_segtree.rs:39-246), a search's panic being caught by the caller (`catch_unwind`), who then
    goes on using the tree and the closures' state as they are. *)
Definition lx_step {S F σ : Type} (e : S) (op : S -> S -> S) (idm : F) (mapping : F -> S -> S) (comp : F -> F -> F)
    (s : lazytree S F * σ) (o : lx_op S F σ) : res (lazytree S F * σ * lx_out S) :=
  let '(t, st) := s in
  match o with
  | LxCall o => '(t, x) ← lt_step e op idm mapping comp t o; Ok (t, st, LxOut x)
  | LxMaxRight l g => '(t, st, r) ← lt_max_right_fx e op idm mapping comp t l g st; Ok (t, st, found r)
  | LxMinLeft r g => '(t, st, l) ← lt_min_left_fx e op idm mapping comp t r g st; Ok (t, st, found l)
  end.
