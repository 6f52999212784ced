(** Model of src/data_structure/lazy_segtree.rs over an operation, a mapping and a composition that may panic. *)
From Verif Require Import Prelude UtilModel ArraySpec SegtreeModel SegtreeChkModel LazySpec LazyModel.

Section Lazy.
  (** src/traits/monoid.rs:7-23  trait MapMonoid: identity_element, binary_operation, identity_map, mapping, composition; the three
      functions may panic. *)
  Context {S F : Type} (e : S) (opc : S -> S -> res S) (idm : F) (mappingc : F -> S -> res S) (compc : F -> F -> res F).

  (** lazy_segtree.rs:265-267  fn update *)
  Definition ltc_update (s : tree S F) (k : nat) : res (tree S F) :=
    let '(d, lz) := s in
    a ← vget d (2 * k);
    b ← vget d (2 * k + 1);
    y ← opc a b;
    d ← vset d k y;
    Ok (d, lz).

  (** lazy_segtree.rs:268-273  fn all_apply *)
  Definition ltc_all_apply (size : nat) (s : tree S F) (k : nat) (f : F) : res (tree S F) :=
    let '(d, lz) := s in
    x ← vget d k;
    y ← mappingc f x;
    d ← vset d k y;
    if k <? size then
      g ← vget lz k;
      h ← compc f g;
      lz ← vset lz k h;
      Ok (d, lz)
    else Ok (d, lz).

  (** lazy_segtree.rs:274-278  fn push *)
  Definition ltc_push (size : nat) (s : tree S F) (k : nat) : res (tree S F) :=
    f ← vget s.2 k;
    s ← ltc_all_apply size s (2 * k) f;
    f ← vget s.2 k;
    s ← ltc_all_apply size s (2 * k + 1) f;
    lz ← vset s.2 k idm;
    Ok (s.1, lz).

  (** lazy_segtree.rs:16-37  From<Vec>::from.  `n as u32` truncates modulo 2^32. *)
  Definition ltc_from (v : list S) : res (lazytree S F) :=
    let n := length v in
    lg ← ceil_lg (Z.of_nat n mod 2 ^ 32);
    let log := Z.to_nat lg in
    let size := 2 ^ log in
    let d := replicate (2 * size) e in
    let lz := replicate size idm in
    d ← copy_into d size v;
    s ← rfor (rev (range 1 size)) (fun i s => ltc_update s i) (d, lz);
    Ok (Lazytree n size log s.1 s.2).

  (** lazy_segtree.rs:12-14  new *)
  Definition ltc_new (n : nat) : res (lazytree S F) := ltc_from (replicate n e).

  (** lazy_segtree.rs:4-8  Default *)
  Definition ltc_default : res (lazytree S F) := ltc_new 0.

  (** lazy_segtree.rs:44-46 (also 57-59, 109-111, 178-180, 218-220)  push all proper ancestors of leaf p, root first *)
  Definition ltc_push_path (size log : nat) (s : tree S F) (p : nat) : res (tree S F) :=
    rfor (rev (range_incl 1 log)) (fun i s => ltc_push size s (p / 2 ^ i)) s.

  (** lazy_segtree.rs:48-50 (also 113-115)  update all proper ancestors of leaf p, bottom up *)
  Definition ltc_update_path (log : nat) (s : tree S F) (p : nat) : res (tree S F) :=
    rfor (range_incl 1 log) (fun i s => ltc_update s (p / 2 ^ i)) s.

  (** lazy_segtree.rs:41-51  set *)
  Definition ltc_set (t : lazytree S F) (p : nat) (x : S) : res (lazytree S F) :=
    rassert (p <? lt_n t) ;;
    let p := p + lt_size t in
    s ← ltc_push_path (lt_size t) (lt_log t) (lt_d t, lt_lz t) p;
    d ← vset s.1 p x;
    s ← ltc_update_path (lt_log t) (d, s.2) p;
    Ok (with_tree t s).

  (** lazy_segtree.rs:54-61  get *)
  Definition ltc_get (t : lazytree S F) (p : nat) : res (lazytree S F * S) :=
    rassert (p <? lt_n t) ;;
    let p := p + lt_size t in
    s ← ltc_push_path (lt_size t) (lt_log t) (lt_d t, lt_lz t) p;
    x ← vget s.1 p;
    Ok (with_tree t s, x).

  (** lazy_segtree.rs:73-80  body of the push loop of prod *)
  Definition ltc_push_bounds (size l r : nat) (i : nat) (s : tree S F) : res (tree S F) :=
    s ← (if straddled l i then ltc_push size s (l / 2 ^ i) else Ok s);
    if straddled r i then ltc_push size s (r / 2 ^ i) else Ok s.

  (** lazy_segtree.rs:64-98  prod.  Its while loop (84-95) is the same code as Segtree::prod. *)
  Definition ltc_prod (t : lazytree S F) (l r : nat) : res (lazytree S F * S) :=
    rassert ((l <=? r) && (r <=? lt_n t)) ;;
    if l =? r then Ok (t, e)
    else
      let l := l + lt_size t in
      let r := r + lt_size t in
      s ← rfor (rev (range_incl 1 (lt_log t))) (ltc_push_bounds (lt_size t) l r) (lt_d t, lt_lz t);
      '(sml, smr) ← rloop (r + 1) (stc_prod_step opc s.1) (l, r, e, e);
      y ← opc sml smr;
      Ok (with_tree t s, y).

  (** lazy_segtree.rs:101-103  all_prod *)
  Definition ltc_all_prod (t : lazytree S F) : res S := vget (lt_d t) 1.

  (** lazy_segtree.rs:106-116  apply *)
  Definition ltc_apply (t : lazytree S F) (p : nat) (f : F) : res (lazytree S F) :=
    rassert (p <? lt_n t) ;;
    let p := p + lt_size t in
    s ← ltc_push_path (lt_size t) (lt_log t) (lt_d t, lt_lz t) p;
    x ← vget s.1 p;
    y ← mappingc f x;
    d ← vset s.1 p y;
    s ← ltc_update_path (lt_log t) (d, s.2) p;
    Ok (with_tree t s).

  (** lazy_segtree.rs:128-135  body of the push loop of apply_range (note the r - 1) *)
  Definition ltc_push_bounds' (size l r : nat) (i : nat) (s : tree S F) : res (tree S F) :=
    s ← (if straddled l i then ltc_push size s (l / 2 ^ i) else Ok s);
    if straddled r i then q ← nsub r 1; ltc_push size s (q / 2 ^ i) else Ok s.

  (** lazy_segtree.rs:140-151  while loop of apply_range; state (l, r, tree) *)
  Definition ltc_apply_step (size : nat) (f : F) (s : nat * nat * tree S F) : res ((nat * nat * tree S F) + tree S F) :=
    let '(l, r, s) := s in
    if l <? r then
      '(l, s) ← (if Nat.odd l then s ← ltc_all_apply size s l f; Ok (l + 1, s) else Ok (l, s));
      '(r, s) ← (if Nat.odd r then r ← nsub r 1; s ← ltc_all_apply size s r f; Ok (r, s) else Ok (r, s));
      Ok (inl (l / 2, r / 2, s))
    else Ok (inr s).

  (** lazy_segtree.rs:156-163  body of the update loop of apply_range *)
  Definition ltc_update_bounds (l r : nat) (i : nat) (s : tree S F) : res (tree S F) :=
    s ← (if straddled l i then ltc_update s (l / 2 ^ i) else Ok s);
    if straddled r i then q ← nsub r 1; ltc_update s (q / 2 ^ i) else Ok s.

  (** lazy_segtree.rs:119-164  apply_range *)
  Definition ltc_apply_range (t : lazytree S F) (l r : nat) (f : F) : res (lazytree S F) :=
    rassert ((l <=? r) && (r <=? lt_n t)) ;;
    if l =? r then Ok t
    else
      let l := l + lt_size t in
      let r := r + lt_size t in
      s ← rfor (rev (range_incl 1 (lt_log t))) (ltc_push_bounds' (lt_size t) l r) (lt_d t, lt_lz t);
      s ← rloop (r + 1) (ltc_apply_step (lt_size t) f) (l, r, s);
      s ← rfor (range_incl 1 (lt_log t)) (ltc_update_bounds l r) s;
      Ok (with_tree t s).

  (** lazy_segtree.rs:187-196  descent inside max_right; result (tree, l - size) *)
  Definition ltc_descend_right (size : nat) (g : S -> bool) (s : tree S F) (l : nat) (sm : S) : res (tree S F * nat) :=
    '(s, l) ← rloop (size + 1) (fun '(s, l, sm) =>
           if l <? size then
             s ← ltc_push size s l;
             let l := 2 * l in
             x ← vget s.1 l;
             r ← opc sm x;
             if g r then Ok (inl (s, l + 1, r)) else Ok (inl (s, l, sm))
           else Ok (inr (s, l))) (s, l, sm);
    r ← nsub l size;
    Ok (s, r).

  (** lazy_segtree.rs:182-203  one iteration of the `loop` of max_right *)
  Definition ltc_max_right_step (n size : nat) (g : S -> bool) (st : tree S F * nat * S)
    : res ((tree S F * nat * S) + (tree S F * nat)) :=
    let '(s, l, sm) := st in
    l ← strip_even l;
    x ← vget s.1 l;
    y ← opc sm x;
    if negb (g y) then
      r ← ltc_descend_right size g s l sm;
      Ok (inr r)
    else
      sm ← opc sm x;
      let l := l + 1 in
      if lowbit l =? l then Ok (inr (s, n)) else Ok (inl (s, l, sm)).

  (** lazy_segtree.rs:168-205  max_right *)
  Definition ltc_max_right (t : lazytree S F) (l : nat) (g : S -> bool) : res (lazytree S F * nat) :=
    rassert (l <=? lt_n t) ;;
    rassert (g e) ;;
    if l =? lt_n t then Ok (t, lt_n t)
    else
      let l := l + lt_size t in
      s ← ltc_push_path (lt_size t) (lt_log t) (lt_d t, lt_lz t) l;
      '(s, r) ← rloop (2 * lt_size t + 1) (ltc_max_right_step (lt_n t) (lt_size t) g) (s, l, e);
      Ok (with_tree t s, r).

  (** lazy_segtree.rs:228-237  descent inside min_left; result (tree, r + 1 - size) *)
  Definition ltc_descend_left (size : nat) (g : S -> bool) (s : tree S F) (r : nat) (sm : S) : res (tree S F * nat) :=
    '(s, r) ← rloop (size + 1) (fun '(s, r, sm) =>
           if r <? size then
             s ← ltc_push size s r;
             let r := 2 * r + 1 in
             x ← vget s.1 r;
             y ← opc x sm;
             if g y then r ← nsub r 1; Ok (inl (s, r, y)) else Ok (inl (s, r, sm))
           else Ok (inr (s, r))) (s, r, sm);
    l ← nsub (r + 1) size;
    Ok (s, l).

  (** lazy_segtree.rs:222-243  one iteration of the `loop` of min_left *)
  Definition ltc_min_left_step (size : nat) (g : S -> bool) (st : tree S F * nat * S)
    : res ((tree S F * nat * S) + (tree S F * nat)) :=
    let '(s, r, sm) := st in
    r ← nsub r 1;
    r ← strip_odd r;
    x ← vget s.1 r;
    y ← opc x sm;
    if negb (g y) then
      l ← ltc_descend_left size g s r sm;
      Ok (inr l)
    else
      sm ← opc x sm;
      if lowbit r =? r then Ok (inr (s, 0)) else Ok (inl (s, r, sm)).

  (** lazy_segtree.rs:208-245  min_left *)
  Definition ltc_min_left (t : lazytree S F) (r : nat) (g : S -> bool) : res (lazytree S F * nat) :=
    rassert (r <=? lt_n t) ;;
    rassert (g e) ;;
    if r =? 0 then Ok (t, 0)
    else
      let r := r + lt_size t in
      q ← nsub r 1;
      s ← ltc_push_path (lt_size t) (lt_log t) (lt_d t, lt_lz t) q;
      '(s, l) ← rloop (2 * lt_size t + 1) (ltc_min_left_step (lt_size t) g) (s, r, e);
      Ok (with_tree t s, l).

  (** One public API call (lazy_segtree.rs:39-246). *)
  Definition ltc_step (t : lazytree S F) (o : lz_op S F) : res (lazytree S F * lz_out S) :=
    match o with
    | LzSet p x => t ← ltc_set t p x; Ok (t, LzUnit)
    | LzGet p => '(t, x) ← ltc_get t p; Ok (t, LzVal x)
    | LzProd l r => '(t, x) ← ltc_prod t l r; Ok (t, LzVal x)
    | LzAllProd => x ← ltc_all_prod t; Ok (t, LzVal x)
    | LzApply p f => t ← ltc_apply t p f; Ok (t, LzUnit)
    | LzApplyRange l r f => t ← ltc_apply_range t l r f; Ok (t, LzUnit)
    | LzMaxRight l g => '(t, r) ← ltc_max_right t l g; Ok (t, LzIdx r)
    | LzMinLeft r g => '(t, l) ← ltc_min_left t r g; Ok (t, LzIdx l)
    end.
End Lazy.
