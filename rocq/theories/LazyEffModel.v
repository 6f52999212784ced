(** Model of src/data_structure/lazy_segtree.rs over an operation, a mapping, a composition and predicates that have side effects
    and may panic: the code of LazyChkModel.v with the state [W] those functions share threaded through. *)
From Verif Require Import Prelude Eff UtilModel ArraySpec EffSpec SegtreeModel SegtreeEffModel LazySpec LazyModel.

Section Lazy.
  (** src/traits/monoid.rs:7-23  trait MapMonoid: identity_element, binary_operation, identity_map, mapping, composition; the three
      functions may panic and act on W. *)
  Context {W S F : Type} (e : S) (opE : S -> S -> eff W S) (idm : F) (mappingE : F -> S -> eff W S) (compE : F -> F -> eff W F).

  (** lazy_segtree.rs:265-267  fn update *)
  Definition lte_update (s : tree S F) (k : nat) : eff W (tree S F) :=
    let '(d, lz) := s in
    a <* elift (vget d (2 * k)) ;*
    b <* elift (vget d (2 * k + 1)) ;*
    y <* opE a b ;*
    d <* elift (vset d k y) ;*
    eret (d, lz).

  (** lazy_segtree.rs:268-273  fn all_apply *)
  Definition lte_all_apply (size : nat) (s : tree S F) (k : nat) (f : F) : eff W (tree S F) :=
    let '(d, lz) := s in
    x <* elift (vget d k) ;*
    y <* mappingE f x ;*
    d <* elift (vset d k y) ;*
    if k <? size then
      g <* elift (vget lz k) ;*
      h <* compE f g ;*
      lz <* elift (vset lz k h) ;*
      eret (d, lz)
    else eret (d, lz).

  (** lazy_segtree.rs:274-278  fn push *)
  Definition lte_push (size : nat) (s : tree S F) (k : nat) : eff W (tree S F) :=
    f <* elift (vget s.2 k) ;*
    s <* lte_all_apply size s (2 * k) f ;*
    f <* elift (vget s.2 k) ;*
    s <* lte_all_apply size s (2 * k + 1) f ;*
    lz <* elift (vset s.2 k idm) ;*
    eret (s.1, lz).

  (** lazy_segtree.rs:16-37  From<Vec>::from.  `n as u32` truncates modulo 2^32. *)
  Definition lte_from (v : list S) : eff W (lazytree S F) :=
    let n := length v in
    lg <* elift (ceil_lg (Z.of_nat n mod 2 ^ 32)) ;*
    let log := Z.to_nat lg in
    let size := 2 ^ log in
    let d := replicate (2 * size) e in
    let lz := replicate size idm in
    d <* elift (copy_into d size v) ;*
    s <* efor (rev (range 1 size)) (fun i s => lte_update s i) (d, lz) ;*
    eret (Lazytree n size log s.1 s.2).

  (** lazy_segtree.rs:12-14  new *)
  Definition lte_new (n : nat) : eff W (lazytree S F) := lte_from (replicate n e).

  (** lazy_segtree.rs:4-8  Default *)
  Definition lte_default : eff W (lazytree S F) := lte_new 0.

  (** lazy_segtree.rs:44-46 (also 57-59, 109-111, 178-180, 218-220)  push all proper ancestors of leaf p, root first *)
  Definition lte_push_path (size log : nat) (s : tree S F) (p : nat) : eff W (tree S F) :=
    efor (rev (range_incl 1 log)) (fun i s => lte_push size s (p / 2 ^ i)) s.

  (** lazy_segtree.rs:48-50 (also 113-115)  update all proper ancestors of leaf p, bottom up *)
  Definition lte_update_path (log : nat) (s : tree S F) (p : nat) : eff W (tree S F) :=
    efor (range_incl 1 log) (fun i s => lte_update s (p / 2 ^ i)) s.

  (** lazy_segtree.rs:41-51  set *)
  Definition lte_set (t : lazytree S F) (p : nat) (x : S) : eff W (lazytree S F) :=
    elift (rassert (p <? lt_n t)) ;;*
    let p := p + lt_size t in
    s <* lte_push_path (lt_size t) (lt_log t) (lt_d t, lt_lz t) p ;*
    d <* elift (vset s.1 p x) ;*
    s <* lte_update_path (lt_log t) (d, s.2) p ;*
    eret (with_tree t s).

  (** lazy_segtree.rs:54-61  get *)
  Definition lte_get (t : lazytree S F) (p : nat) : eff W (lazytree S F * S) :=
    elift (rassert (p <? lt_n t)) ;;*
    let p := p + lt_size t in
    s <* lte_push_path (lt_size t) (lt_log t) (lt_d t, lt_lz t) p ;*
    x <* elift (vget s.1 p) ;*
    eret (with_tree t s, x).

  (** lazy_segtree.rs:73-80  body of the push loop of prod *)
  Definition lte_push_bounds (size l r : nat) (i : nat) (s : tree S F) : eff W (tree S F) :=
    s <* (if straddled l i then lte_push size s (l / 2 ^ i) else eret s) ;*
    if straddled r i then lte_push size s (r / 2 ^ i) else eret s.

  (** lazy_segtree.rs:64-98  prod.  Its while loop (84-95) is the same code as Segtree::prod. *)
  Definition lte_prod (t : lazytree S F) (l r : nat) : eff W (lazytree S F * S) :=
    elift (rassert ((l <=? r) && (r <=? lt_n t))) ;;*
    if l =? r then eret (t, e)
    else
      let l := l + lt_size t in
      let r := r + lt_size t in
      s <* efor (rev (range_incl 1 (lt_log t))) (lte_push_bounds (lt_size t) l r) (lt_d t, lt_lz t) ;*
      '(sml, smr) <* eloop (r + 1) (ste_prod_step opE s.1) (l, r, e, e) ;*
      y <* opE sml smr ;*
      eret (with_tree t s, y).

  (** lazy_segtree.rs:101-103  all_prod *)
  Definition lte_all_prod (t : lazytree S F) : eff W S := elift (vget (lt_d t) 1).

  (** lazy_segtree.rs:106-116  apply *)
  Definition lte_apply (t : lazytree S F) (p : nat) (f : F) : eff W (lazytree S F) :=
    elift (rassert (p <? lt_n t)) ;;*
    let p := p + lt_size t in
    s <* lte_push_path (lt_size t) (lt_log t) (lt_d t, lt_lz t) p ;*
    x <* elift (vget s.1 p) ;*
    y <* mappingE f x ;*
    d <* elift (vset s.1 p y) ;*
    s <* lte_update_path (lt_log t) (d, s.2) p ;*
    eret (with_tree t s).

  (** lazy_segtree.rs:128-135  body of the push loop of apply_range (note the r - 1) *)
  Definition lte_push_bounds' (size l r : nat) (i : nat) (s : tree S F) : eff W (tree S F) :=
    s <* (if straddled l i then lte_push size s (l / 2 ^ i) else eret s) ;*
    if straddled r i then q <* elift (nsub r 1) ;* lte_push size s (q / 2 ^ i) else eret s.

  (** lazy_segtree.rs:140-151  while loop of apply_range; state (l, r, tree) *)
  Definition lte_apply_step (size : nat) (f : F) (s : nat * nat * tree S F) : eff W ((nat * nat * tree S F) + tree S F) :=
    let '(l, r, s) := s in
    if l <? r then
      '(l, s) <* (if Nat.odd l then s <* lte_all_apply size s l f ;* eret (l + 1, s) else eret (l, s)) ;*
      '(r, s) <* (if Nat.odd r then r <* elift (nsub r 1) ;* s <* lte_all_apply size s r f ;* eret (r, s) else eret (r, s)) ;*
      eret (inl (l / 2, r / 2, s))
    else eret (inr s).

  (** lazy_segtree.rs:156-163  body of the update loop of apply_range *)
  Definition lte_update_bounds (l r : nat) (i : nat) (s : tree S F) : eff W (tree S F) :=
    s <* (if straddled l i then lte_update s (l / 2 ^ i) else eret s) ;*
    if straddled r i then q <* elift (nsub r 1) ;* lte_update s (q / 2 ^ i) else eret s.

  (** lazy_segtree.rs:119-164  apply_range *)
  Definition lte_apply_range (t : lazytree S F) (l r : nat) (f : F) : eff W (lazytree S F) :=
    elift (rassert ((l <=? r) && (r <=? lt_n t))) ;;*
    if l =? r then eret t
    else
      let l := l + lt_size t in
      let r := r + lt_size t in
      s <* efor (rev (range_incl 1 (lt_log t))) (lte_push_bounds' (lt_size t) l r) (lt_d t, lt_lz t) ;*
      s <* eloop (r + 1) (lte_apply_step (lt_size t) f) (l, r, s) ;*
      s <* efor (range_incl 1 (lt_log t)) (lte_update_bounds l r) s ;*
      eret (with_tree t s).

  (** lazy_segtree.rs:187-196  descent inside max_right; result (tree, l - size) *)
  Definition lte_descend_right (size : nat) (g : S -> eff W bool) (s : tree S F) (l : nat) (sm : S) : eff W (tree S F * nat) :=
    '(s, l) <* eloop (size + 1) (fun '(s, l, sm) =>
           if l <? size then
             s <* lte_push size s l ;*
             let l := 2 * l in
             x <* elift (vget s.1 l) ;*
             r <* opE sm x ;*
             b <* g r ;*
             if b : bool then eret (inl (s, l + 1, r)) else eret (inl (s, l, sm))
           else eret (inr (s, l))) (s, l, sm) ;*
    r <* elift (nsub l size) ;*
    eret (s, r).

  (** lazy_segtree.rs:182-203  one iteration of the `loop` of max_right *)
  Definition lte_max_right_step (n size : nat) (g : S -> eff W bool) (st : tree S F * nat * S)
    : eff W ((tree S F * nat * S) + (tree S F * nat)) :=
    let '(s, l, sm) := st in
    l <* elift (strip_even l) ;*
    x <* elift (vget s.1 l) ;*
    y <* opE sm x ;*
    b <* g y ;*
    if negb b then
      r <* lte_descend_right size g s l sm ;*
      eret (inr r)
    else
      sm <* opE sm x ;*
      let l := l + 1 in
      if lowbit l =? l then eret (inr (s, n)) else eret (inl (s, l, sm)).

  (** lazy_segtree.rs:168-205  max_right *)
  Definition lte_max_right (t : lazytree S F) (l : nat) (g : S -> eff W bool) : eff W (lazytree S F * nat) :=
    elift (rassert (l <=? lt_n t)) ;;*
    b <* g e ;*
    elift (rassert b) ;;*
    if l =? lt_n t then eret (t, lt_n t)
    else
      let l := l + lt_size t in
      s <* lte_push_path (lt_size t) (lt_log t) (lt_d t, lt_lz t) l ;*
      '(s, r) <* eloop (2 * lt_size t + 1) (lte_max_right_step (lt_n t) (lt_size t) g) (s, l, e) ;*
      eret (with_tree t s, r).

  (** lazy_segtree.rs:228-237  descent inside min_left; result (tree, r + 1 - size) *)
  Definition lte_descend_left (size : nat) (g : S -> eff W bool) (s : tree S F) (r : nat) (sm : S) : eff W (tree S F * nat) :=
    '(s, r) <* eloop (size + 1) (fun '(s, r, sm) =>
           if r <? size then
             s <* lte_push size s r ;*
             let r := 2 * r + 1 in
             x <* elift (vget s.1 r) ;*
             y <* opE x sm ;*
             b <* g y ;*
             if b : bool then r <* elift (nsub r 1) ;* eret (inl (s, r, y)) else eret (inl (s, r, sm))
           else eret (inr (s, r))) (s, r, sm) ;*
    l <* elift (nsub (r + 1) size) ;*
    eret (s, l).

  (** lazy_segtree.rs:222-243  one iteration of the `loop` of min_left *)
  Definition lte_min_left_step (size : nat) (g : S -> eff W bool) (st : tree S F * nat * S)
    : eff W ((tree S F * nat * S) + (tree S F * nat)) :=
    let '(s, r, sm) := st in
    r <* elift (nsub r 1) ;*
    r <* elift (strip_odd r) ;*
    x <* elift (vget s.1 r) ;*
    y <* opE x sm ;*
    b <* g y ;*
    if negb b then
      l <* lte_descend_left size g s r sm ;*
      eret (inr l)
    else
      sm <* opE x sm ;*
      if lowbit r =? r then eret (inr (s, 0)) else eret (inl (s, r, sm)).

  (** lazy_segtree.rs:208-245  min_left *)
  Definition lte_min_left (t : lazytree S F) (r : nat) (g : S -> eff W bool) : eff W (lazytree S F * nat) :=
    elift (rassert (r <=? lt_n t)) ;;*
    b <* g e ;*
    elift (rassert b) ;;*
    if r =? 0 then eret (t, 0)
    else
      let r := r + lt_size t in
      q <* elift (nsub r 1) ;*
      s <* lte_push_path (lt_size t) (lt_log t) (lt_d t, lt_lz t) q ;*
      '(s, l) <* eloop (2 * lt_size t + 1) (lte_min_left_step (lt_size t) g) (s, r, e) ;*
      eret (with_tree t s, l).

  (** One public API call (lazy_segtree.rs:39-246). *)
  Definition lte_step (t : lazytree S F) (o : ef_op W S F) : eff W (lazytree S F * lz_out S) :=
    match o with
    | EfSet p x => t <* lte_set t p x ;* eret (t, LzUnit)
    | EfGet p => '(t, x) <* lte_get t p ;* eret (t, LzVal x)
    | EfProd l r => '(t, x) <* lte_prod t l r ;* eret (t, LzVal x)
    | EfAllProd => x <* lte_all_prod t ;* eret (t, LzVal x)
    | EfApply p f => t <* lte_apply t p f ;* eret (t, LzUnit)
    | EfApplyRange l r f => t <* lte_apply_range t l r f ;* eret (t, LzUnit)
    | EfMaxRight l _ g => '(t, r) <* lte_max_right t l g ;* eret (t, LzIdx r)
    | EfMinLeft r _ g => '(t, l) <* lte_min_left t r g ;* eret (t, LzIdx l)
    end.
End Lazy.
