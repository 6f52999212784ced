(** Model of src/data_structure/lazy_segtree.rs over an operation, a mapping and a composition that may panic, with the memory
    a panic leaves behind. *)
From Verif Require Import Prelude UtilModel ArraySpec SegtreeModel SegtreeChkModel LazySpec LazyModel LazyChkModel Unwind.

Section Lazy.
  (** src/traits/monoid.rs:7-23  trait MapMonoid; the three functions may panic. *)
  Context {S F : Type} (e : S) (opc : S -> S -> res S) (idm : F) (mappingc : F -> S -> res S) (compc : F -> F -> res F).
  Local Notation tree := (tree S F).

  (** lazy_segtree.rs:265-267  fn update; the operation is called before the single write *)
  Definition ltu_update (k : nat) : uw tree unit := uwrite (fun s => ltc_update opc s k).

  (** lazy_segtree.rs:268-273  fn all_apply; d[k] is written before the composition is called *)
  Definition ltu_all_apply (size k : nat) (f : F) : uw tree unit :=
    uwrite (fun s => x ← vget s.1 k; y ← mappingc f x; d ← vset s.1 k y; Ok (d, s.2)) ;;~
    (if k <? size then
       uwrite (fun s => g ← vget s.2 k; h ← compc f g; lz ← vset s.2 k h; Ok (s.1, lz))
     else uret tt).

  (** lazy_segtree.rs:274-278  fn push *)
  Definition ltu_push (size k : nat) : uw tree unit :=
    f <~ uread (fun s => vget s.2 k) ;~
    ltu_all_apply size (2 * k) f ;;~
    (f <~ uread (fun s => vget s.2 k) ;~
     ltu_all_apply size (2 * k + 1) f ;;~
     uwrite (fun s => lz ← vset s.2 k idm; Ok (s.1, lz))).

  (** lazy_segtree.rs:44-46 (also 57-59, 109-111, 178-180, 218-220)  push all proper ancestors of leaf p, root first *)
  Definition ltu_push_path (size log p : nat) : uw tree unit :=
    ufor (rev (range_incl 1 log)) (fun i _ => ltu_push size (p / 2 ^ i)) tt.

  (** lazy_segtree.rs:48-50 (also 113-115)  update all proper ancestors of leaf p, bottom up *)
  Definition ltu_update_path (log p : nat) : uw tree unit :=
    ufor (range_incl 1 log) (fun i _ => ltu_update (p / 2 ^ i)) tt.

  (** A method: n, size and log do not change. *)
  Definition on_tree {A} (m : lazytree S F -> uw tree A) : uw (lazytree S F) A :=
    fun t => '(s, o) ← m t (lt_d t, lt_lz t); Ok (with_tree t s, o).

  (** lazy_segtree.rs:41-51  set *)
  Definition ltu_set (p : nat) (x : S) : uw (lazytree S F) unit :=
    on_tree (fun t =>
      uread (fun _ => rassert (p <? lt_n t)) ;;~
      let p := p + lt_size t in
      ltu_push_path (lt_size t) (lt_log t) p ;;~
      (uwrite (fun s => d ← vset s.1 p x; Ok (d, s.2)) ;;~
       ltu_update_path (lt_log t) p)).

  (** lazy_segtree.rs:54-61  get *)
  Definition ltu_get (p : nat) : uw (lazytree S F) S :=
    on_tree (fun t =>
      uread (fun _ => rassert (p <? lt_n t)) ;;~
      let p := p + lt_size t in
      ltu_push_path (lt_size t) (lt_log t) p ;;~
      uread (fun s => vget s.1 p)).

  (** lazy_segtree.rs:73-80  body of the push loop of prod *)
  Definition ltu_push_bounds (size l r i : nat) : uw tree unit :=
    (if straddled l i then ltu_push size (l / 2 ^ i) else uret tt) ;;~
    (if straddled r i then ltu_push size (r / 2 ^ i) else uret tt).

  (** lazy_segtree.rs:64-98  prod; the while loop (84-95) only reads *)
  Definition ltu_prod (l r : nat) : uw (lazytree S F) S :=
    on_tree (fun t =>
      uread (fun _ => rassert ((l <=? r) && (r <=? lt_n t))) ;;~
      if l =? r then uret e
      else
        let l := l + lt_size t in
        let r := r + lt_size t in
        ufor (rev (range_incl 1 (lt_log t))) (fun i _ => ltu_push_bounds (lt_size t) l r i) tt ;;~
        uread (fun s => '(sml, smr) ← rloop (r + 1) (stc_prod_step opc s.1) (l, r, e, e); opc sml smr)).

  (** lazy_segtree.rs:106-116  apply *)
  Definition ltu_apply (p : nat) (f : F) : uw (lazytree S F) unit :=
    on_tree (fun t =>
      uread (fun _ => rassert (p <? lt_n t)) ;;~
      let p := p + lt_size t in
      ltu_push_path (lt_size t) (lt_log t) p ;;~
      (uwrite (fun s => x ← vget s.1 p; y ← mappingc f x; d ← vset s.1 p y; Ok (d, s.2)) ;;~
       ltu_update_path (lt_log t) p)).

  (** lazy_segtree.rs:128-135  body of the push loop of apply_range *)
  Definition ltu_push_bounds' (size l r i : nat) : uw tree unit :=
    (if straddled l i then ltu_push size (l / 2 ^ i) else uret tt) ;;~
    (if straddled r i then q <~ uread (fun _ => nsub r 1) ;~ ltu_push size (q / 2 ^ i) else uret tt).

  (** lazy_segtree.rs:140-151  while loop of apply_range *)
  Definition ltu_apply_step (size : nat) (f : F) (b : nat * nat) : uw tree ((nat * nat) + unit) :=
    let '(l, r) := b in
    if l <? r then
      l <~ (if Nat.odd l then ltu_all_apply size l f ;;~ uret (l + 1) else uret l) ;~
      (r <~ (if Nat.odd r then r <~ uread (fun _ => nsub r 1) ;~ (ltu_all_apply size r f ;;~ uret r) else uret r) ;~
       uret (inl (l / 2, r / 2)))
    else uret (inr tt).

  (** lazy_segtree.rs:156-163  body of the update loop of apply_range *)
  Definition ltu_update_bounds (l r i : nat) : uw tree unit :=
    (if straddled l i then ltu_update (l / 2 ^ i) else uret tt) ;;~
    (if straddled r i then q <~ uread (fun _ => nsub r 1) ;~ ltu_update (q / 2 ^ i) else uret tt).

  (** lazy_segtree.rs:119-164  apply_range *)
  Definition ltu_apply_range (l r : nat) (f : F) : uw (lazytree S F) unit :=
    on_tree (fun t =>
      uread (fun _ => rassert ((l <=? r) && (r <=? lt_n t))) ;;~
      if l =? r then uret tt
      else
        let l := l + lt_size t in
        let r := r + lt_size t in
        ufor (rev (range_incl 1 (lt_log t))) (fun i _ => ltu_push_bounds' (lt_size t) l r i) tt ;;~
        (uloop (r + 1) (ltu_apply_step (lt_size t) f) (l, r) ;;~
         ufor (range_incl 1 (lt_log t)) (fun i _ => ltu_update_bounds l r i) tt)).

  (** lazy_segtree.rs:187-195  one turn of the descent inside max_right *)
  Definition ltu_descend_right_step (size : nat) (g : S -> bool) (b : nat * S) : uw tree ((nat * S) + nat) :=
    let '(l, sm) := b in
    if l <? size then
      ltu_push size l ;;~
      let l := 2 * l in
      r <~ uread (fun s => x ← vget s.1 l; opc sm x) ;~
      (if g r then uret (inl (l + 1, r)) else uret (inl (l, sm)))
    else uret (inr l).

  (** lazy_segtree.rs:182-203  one iteration of the `loop` of max_right *)
  Definition ltu_max_right_step (n size : nat) (g : S -> bool) (b : nat * S) : uw tree ((nat * S) + nat) :=
    let '(l, sm) := b in
    l <~ uread (fun _ => strip_even l) ;~
    (x <~ uread (fun s => vget s.1 l) ;~
     (y <~ uread (fun _ => opc sm x) ;~
      (if negb (g y) then
         l <~ uloop (size + 1) (ltu_descend_right_step size g) (l, sm) ;~
         (r <~ uread (fun _ => nsub l size) ;~ uret (inr r))
       else
         sm <~ uread (fun _ => opc sm x) ;~
         let l := l + 1 in
         if lowbit l =? l then uret (inr n) else uret (inl (l, sm))))).

  (** lazy_segtree.rs:168-205  max_right *)
  Definition ltu_max_right (l : nat) (g : S -> bool) : uw (lazytree S F) nat :=
    on_tree (fun t =>
      uread (fun _ => rassert (l <=? lt_n t)) ;;~
      (uread (fun _ => rassert (g e)) ;;~
       if l =? lt_n t then uret (lt_n t)
       else
         let l := l + lt_size t in
         ltu_push_path (lt_size t) (lt_log t) l ;;~
         uloop (2 * lt_size t + 1) (ltu_max_right_step (lt_n t) (lt_size t) g) (l, e))).

  (** lazy_segtree.rs:228-236  one turn of the descent inside min_left *)
  Definition ltu_descend_left_step (size : nat) (g : S -> bool) (b : nat * S) : uw tree ((nat * S) + nat) :=
    let '(r, sm) := b in
    if r <? size then
      ltu_push size r ;;~
      let r := 2 * r + 1 in
      y <~ uread (fun s => x ← vget s.1 r; opc x sm) ;~
      (if g y then r <~ uread (fun _ => nsub r 1) ;~ uret (inl (r, y)) else uret (inl (r, sm)))
    else uret (inr r).

  (** lazy_segtree.rs:222-243  one iteration of the `loop` of min_left *)
  Definition ltu_min_left_step (size : nat) (g : S -> bool) (b : nat * S) : uw tree ((nat * S) + nat) :=
    let '(r, sm) := b in
    r <~ uread (fun _ => nsub r 1) ;~
    (r <~ uread (fun _ => strip_odd r) ;~
     (x <~ uread (fun s => vget s.1 r) ;~
      (y <~ uread (fun _ => opc x sm) ;~
       (if negb (g y) then
          r <~ uloop (size + 1) (ltu_descend_left_step size g) (r, sm) ;~
          (l <~ uread (fun _ => nsub (r + 1) size) ;~ uret (inr l))
        else
          sm <~ uread (fun _ => opc x sm) ;~
          (if lowbit r =? r then uret (inr 0) else uret (inl (r, sm))))))).

  (** lazy_segtree.rs:208-245  min_left *)
  Definition ltu_min_left (r : nat) (g : S -> bool) : uw (lazytree S F) nat :=
    on_tree (fun t =>
      uread (fun _ => rassert (r <=? lt_n t)) ;;~
      (uread (fun _ => rassert (g e)) ;;~
       if r =? 0 then uret 0
       else
         let r := r + lt_size t in
         q <~ uread (fun _ => nsub r 1) ;~
         (ltu_push_path (lt_size t) (lt_log t) q ;;~
          uloop (2 * lt_size t + 1) (ltu_min_left_step (lt_size t) g) (r, e)))).

  (** One public API call (lazy_segtree.rs:39-246). *)
  Definition ltu_step (o : lz_op S F) : uw (lazytree S F) (lz_out S) :=
    match o with
    | LzSet p x => ltu_set p x ;;~ uret LzUnit
    | LzGet p => x <~ ltu_get p ;~ uret (LzVal x)
    | LzProd l r => x <~ ltu_prod l r ;~ uret (LzVal x)
    | LzAllProd => x <~ uread (fun t => ltc_all_prod t) ;~ uret (LzVal x)
    | LzApply p f => ltu_apply p f ;;~ uret LzUnit
    | LzApplyRange l r f => ltu_apply_range l r f ;;~ uret LzUnit
    | LzMaxRight l g => r <~ ltu_max_right l g ;~ uret (LzIdx r)
    | LzMinLeft r g => l <~ ltu_min_left r g ;~ uret (LzIdx l)
    end.
End Lazy.
