(** Model of src/data_structure/lazy_segtree.rs. *)
From Verif Require Import Prelude UtilModel ArraySpec SegtreeModel LazySpec.

Section Lazy.
  (** src/traits/monoid.rs:7-23  trait MapMonoid as pure functions: identity_element, binary_operation,
      identity_map, mapping, composition. *)
  Context {S F : Type} (e : S) (op : S -> S -> S) (idm : F) (mapping : F -> S -> S) (comp : F -> F -> F).

  (** lazy_segtree.rs:251-260  struct LazySegtree *)
  Record lazytree := Lazytree { lt_n : nat; lt_size : nat; lt_log : nat; lt_d : list S; lt_lz : list F }.

  (** The two vectors d and lz, which is all that the operations change. *)
  Definition tree := (list S * list F)%type.
  Definition with_tree (t : lazytree) (s : tree) : lazytree :=
    Lazytree (lt_n t) (lt_size t) (lt_log t) s.1 s.2.

  (** lazy_segtree.rs:265-267  fn update *)
  Definition lt_update (s : tree) (k : nat) : res tree :=
    let '(d, lz) := s in
    a ← vget d (2 * k);
    b ← vget d (2 * k + 1);
    d ← vset d k (op a b);
    Ok (d, lz).

  (** lazy_segtree.rs:268-273  fn all_apply *)
  Definition lt_all_apply (size : nat) (s : tree) (k : nat) (f : F) : res tree :=
    let '(d, lz) := s in
    x ← vget d k;
    d ← vset d k (mapping f x);
    if k <? size then
      g ← vget lz k;
      lz ← vset lz k (comp f g);
      Ok (d, lz)
    else Ok (d, lz).

  (** lazy_segtree.rs:274-278  fn push *)
  Definition lt_push (size : nat) (s : tree) (k : nat) : res tree :=
    f ← vget s.2 k;
    s ← lt_all_apply size s (2 * k) f;
    f ← vget s.2 k;
    s ← lt_all_apply size s (2 * k + 1) f;
    lz ← vset s.2 k idm;
    Ok (s.1, lz).

  (** lazy_segtree.rs:16-37  From<Vec>::from.  `n as u32` truncates modulo 2^32. *)
  Definition lt_from (v : list S) : res lazytree :=
    let n := length v in
    lg ← ceil_lg (Z.of_nat n mod 2 ^ 32);
    let log := Z.to_nat lg in
    let size := 2 ^ log in
    let d := replicate (2 * size) e in
    let lz := replicate size idm in
    d ← copy_into d size v;
    s ← rfor (rev (range 1 size)) (fun i s => lt_update s i) (d, lz);
    Ok (Lazytree n size log s.1 s.2).

  (** lazy_segtree.rs:12-14  new *)
  Definition lt_new (n : nat) : res lazytree := lt_from (replicate n e).

  (** lazy_segtree.rs:4-8  Default *)
  Definition lt_default : res lazytree := lt_new 0.

  (** lazy_segtree.rs:44-46 (also 57-59, 109-111, 178-180, 218-220)  push all proper ancestors of leaf p, root first *)
  Definition lt_push_path (size log : nat) (s : tree) (p : nat) : res tree :=
    rfor (rev (range_incl 1 log)) (fun i s => lt_push size s (p / 2 ^ i)) s.

  (** lazy_segtree.rs:48-50 (also 113-115)  update all proper ancestors of leaf p, bottom up *)
  Definition lt_update_path (log : nat) (s : tree) (p : nat) : res tree :=
    rfor (range_incl 1 log) (fun i s => lt_update s (p / 2 ^ i)) s.

  (** lazy_segtree.rs:41-51  set *)
  Definition lt_set (t : lazytree) (p : nat) (x : S) : res lazytree :=
    rassert (p <? lt_n t) ;;
    let p := p + lt_size t in
    s ← lt_push_path (lt_size t) (lt_log t) (lt_d t, lt_lz t) p;
    d ← vset s.1 p x;
    s ← lt_update_path (lt_log t) (d, s.2) p;
    Ok (with_tree t s).

  (** lazy_segtree.rs:54-61  get *)
  Definition lt_get (t : lazytree) (p : nat) : res (lazytree * S) :=
    rassert (p <? lt_n t) ;;
    let p := p + lt_size t in
    s ← lt_push_path (lt_size t) (lt_log t) (lt_d t, lt_lz t) p;
    x ← vget s.1 p;
    Ok (with_tree t s, x).

  (** `((l >> i) << i) != l` *)
  Definition straddled (l i : nat) : bool := negb (l / 2 ^ i * 2 ^ i =? l).

  (** lazy_segtree.rs:73-80  body of the push loop of prod *)
  Definition lt_push_bounds (size l r : nat) (i : nat) (s : tree) : res tree :=
    s ← (if straddled l i then lt_push size s (l / 2 ^ i) else Ok s);
    if straddled r i then lt_push size s (r / 2 ^ i) else Ok s.

  (** lazy_segtree.rs:64-98  prod.  Its while loop (84-95) is the same code as Segtree::prod. *)
  Definition lt_prod (t : lazytree) (l r : nat) : res (lazytree * S) :=
    rassert ((l <=? r) && (r <=? lt_n t)) ;;
    if l =? r then Ok (t, e)
    else
      let l := l + lt_size t in
      let r := r + lt_size t in
      s ← rfor (rev (range_incl 1 (lt_log t))) (lt_push_bounds (lt_size t) l r) (lt_d t, lt_lz t);
      '(sml, smr) ← rloop (r + 1) (st_prod_step op s.1) (l, r, e, e);
      Ok (with_tree t s, op sml smr).

  (** lazy_segtree.rs:101-103  all_prod *)
  Definition lt_all_prod (t : lazytree) : res S := vget (lt_d t) 1.

  (** lazy_segtree.rs:106-116  apply *)
  Definition lt_apply (t : lazytree) (p : nat) (f : F) : res lazytree :=
    rassert (p <? lt_n t) ;;
    let p := p + lt_size t in
    s ← lt_push_path (lt_size t) (lt_log t) (lt_d t, lt_lz t) p;
    x ← vget s.1 p;
    d ← vset s.1 p (mapping f x);
    s ← lt_update_path (lt_log t) (d, s.2) p;
    Ok (with_tree t s).

  (** lazy_segtree.rs:128-135  body of the push loop of apply_range (note the r - 1) *)
  Definition lt_push_bounds' (size l r : nat) (i : nat) (s : tree) : res tree :=
    s ← (if straddled l i then lt_push size s (l / 2 ^ i) else Ok s);
    if straddled r i then q ← nsub r 1; lt_push size s (q / 2 ^ i) else Ok s.

  (** lazy_segtree.rs:140-151  while loop of apply_range; state (l, r, tree) *)
  Definition lt_apply_step (size : nat) (f : F) (s : nat * nat * tree) : res ((nat * nat * tree) + tree) :=
    let '(l, r, s) := s in
    if l <? r then
      '(l, s) ← (if Nat.odd l then s ← lt_all_apply size s l f; Ok (l + 1, s) else Ok (l, s));
      '(r, s) ← (if Nat.odd r then r ← nsub r 1; s ← lt_all_apply size s r f; Ok (r, s) else Ok (r, s));
      Ok (inl (l / 2, r / 2, s))
    else Ok (inr s).

  (** lazy_segtree.rs:156-163  body of the update loop of apply_range *)
  Definition lt_update_bounds (l r : nat) (i : nat) (s : tree) : res tree :=
    s ← (if straddled l i then lt_update s (l / 2 ^ i) else Ok s);
    if straddled r i then q ← nsub r 1; lt_update s (q / 2 ^ i) else Ok s.

  (** lazy_segtree.rs:119-164  apply_range *)
  Definition lt_apply_range (t : lazytree) (l r : nat) (f : F) : res lazytree :=
    rassert ((l <=? r) && (r <=? lt_n t)) ;;
    if l =? r then Ok t
    else
      let l := l + lt_size t in
      let r := r + lt_size t in
      s ← rfor (rev (range_incl 1 (lt_log t))) (lt_push_bounds' (lt_size t) l r) (lt_d t, lt_lz t);
      s ← rloop (r + 1) (lt_apply_step (lt_size t) f) (l, r, s);
      s ← rfor (range_incl 1 (lt_log t)) (lt_update_bounds l r) s;
      Ok (with_tree t s).

  (** lazy_segtree.rs:187-196  descent inside max_right; result (tree, l - size) *)
  Definition lt_descend_right (size : nat) (g : S -> bool) (s : tree) (l : nat) (sm : S) : res (tree * nat) :=
    '(s, l) ← rloop (size + 1) (fun '(s, l, sm) =>
           if l <? size then
             s ← lt_push size s l;
             let l := 2 * l in
             x ← vget s.1 l;
             let r := op sm x in
             if g r then Ok (inl (s, l + 1, r)) else Ok (inl (s, l, sm))
           else Ok (inr (s, l))) (s, l, sm);
    r ← nsub l size;
    Ok (s, r).

  (** lazy_segtree.rs:182-203  one iteration of the `loop` of max_right *)
  Definition lt_max_right_step (n size : nat) (g : S -> bool) (st : tree * nat * S)
    : res ((tree * nat * S) + (tree * nat)) :=
    let '(s, l, sm) := st in
    l ← strip_even l;
    x ← vget s.1 l;
    if negb (g (op sm x)) then
      r ← lt_descend_right size g s l sm;
      Ok (inr r)
    else
      let sm := op sm x in
      let l := l + 1 in
      if lowbit l =? l then Ok (inr (s, n)) else Ok (inl (s, l, sm)).

  (** lazy_segtree.rs:168-205  max_right *)
  Definition lt_max_right (t : lazytree) (l : nat) (g : S -> bool) : res (lazytree * nat) :=
    rassert (l <=? lt_n t) ;;
    rassert (g e) ;;
    if l =? lt_n t then Ok (t, lt_n t)
    else
      let l := l + lt_size t in
      s ← lt_push_path (lt_size t) (lt_log t) (lt_d t, lt_lz t) l;
      '(s, r) ← rloop (2 * lt_size t + 1) (lt_max_right_step (lt_n t) (lt_size t) g) (s, l, e);
      Ok (with_tree t s, r).

  (** lazy_segtree.rs:228-237  descent inside min_left; result (tree, r + 1 - size) *)
  Definition lt_descend_left (size : nat) (g : S -> bool) (s : tree) (r : nat) (sm : S) : res (tree * nat) :=
    '(s, r) ← rloop (size + 1) (fun '(s, r, sm) =>
           if r <? size then
             s ← lt_push size s r;
             let r := 2 * r + 1 in
             x ← vget s.1 r;
             let y := op x sm in
             if g y then r ← nsub r 1; Ok (inl (s, r, y)) else Ok (inl (s, r, sm))
           else Ok (inr (s, r))) (s, r, sm);
    l ← nsub (r + 1) size;
    Ok (s, l).

  (** lazy_segtree.rs:222-243  one iteration of the `loop` of min_left *)
  Definition lt_min_left_step (size : nat) (g : S -> bool) (st : tree * nat * S)
    : res ((tree * nat * S) + (tree * nat)) :=
    let '(s, r, sm) := st in
    r ← nsub r 1;
    r ← strip_odd r;
    x ← vget s.1 r;
    if negb (g (op x sm)) then
      l ← lt_descend_left size g s r sm;
      Ok (inr l)
    else
      let sm := op x sm in
      if lowbit r =? r then Ok (inr (s, 0)) else Ok (inl (s, r, sm)).

  (** lazy_segtree.rs:208-245  min_left *)
  Definition lt_min_left (t : lazytree) (r : nat) (g : S -> bool) : res (lazytree * nat) :=
    rassert (r <=? lt_n t) ;;
    rassert (g e) ;;
    if r =? 0 then Ok (t, 0)
    else
      let r := r + lt_size t in
      q ← nsub r 1;
      s ← lt_push_path (lt_size t) (lt_log t) (lt_d t, lt_lz t) q;
      '(s, l) ← rloop (2 * lt_size t + 1) (lt_min_left_step (lt_size t) g) (s, r, e);
      Ok (with_tree t s, l).

  (** One public API call (lazy_segtree.rs:39-246). *)
  Definition lt_step (t : lazytree) (o : lz_op S F) : res (lazytree * lz_out S) :=
    match o with
    | LzSet p x => t ← lt_set t p x; Ok (t, LzUnit)
    | LzGet p => '(t, x) ← lt_get t p; Ok (t, LzVal x)
    | LzProd l r => '(t, x) ← lt_prod t l r; Ok (t, LzVal x)
    | LzAllProd => x ← lt_all_prod t; Ok (t, LzVal x)
    | LzApply p f => t ← lt_apply t p f; Ok (t, LzUnit)
    | LzApplyRange l r f => t ← lt_apply_range t l r f; Ok (t, LzUnit)
    | LzMaxRight l g => '(t, r) ← lt_max_right t l g; Ok (t, LzIdx r)
    | LzMinLeft r g => '(t, l) ← lt_min_left t r g; Ok (t, LzIdx l)
    end.
End Lazy.
Arguments lazytree : clear implicits.
Arguments Lazytree {S F}.
Arguments tree : clear implicits.
