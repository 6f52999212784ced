(** Model of src/data_structure/segtree.rs. *)
From Verif Require Import Prelude UtilModel ArraySpec SegtreeSpec.

Section Segtree.
  (** src/traits/monoid.rs:1-5  trait Monoid { type S; identity; binary_operation } as pure functions. *)
  Context {S : Type} (e : S) (op : S -> S -> S).

  (** src/data_structure/segtree.rs:173-182  struct Segtree *)
  Record segtree := Segtree { sg_n : nat; sg_size : nat; sg_log : nat; sg_d : list S }.

  (** segtree.rs:155-157  fn update: d[k] = op(d[2k], d[2k+1]) (reads first, then the write) *)
  Definition st_update (d : list S) (k : nat) : res (list S) :=
    a ← vget d (2 * k);
    b ← vget d (2 * k + 1);
    vset d k (op a b).

  (** `d[size..(size + n)].clone_from_slice(&v)` with n = v.len(): panics if the slice does not fit. *)
  Definition copy_into (d : list S) (off : nat) (v : list S) : res (list S) :=
    if off + length v <=? length d
    then Ok (take off d ++ v ++ drop (off + length v) d) else Panic.

  (** segtree.rs:15-29  From<Vec>::from.  `n as u32` truncates modulo 2^32. *)
  Definition st_from (v : list S) : res segtree :=
    let n := length v in
    lg ← ceil_lg (Z.of_nat n mod 2 ^ 32);
    let log := Z.to_nat lg in
    let size := 2 ^ log in
    let d := replicate (2 * size) e in
    d ← copy_into d size v;
    d ← rfor (rev (range 1 size)) (fun i d => st_update d i) d;
    Ok (Segtree n size log d).

  (** segtree.rs:11-13  new *)
  Definition st_new (n : nat) : res segtree := st_from (replicate n e).

  (** segtree.rs:4-8  Default *)
  Definition st_default : res segtree := st_new 0.

  (** segtree.rs:32-39  set.  `p >> i` is p / 2^i. *)
  Definition st_set (t : segtree) (p : nat) (x : S) : res segtree :=
    rassert (p <? sg_n t) ;;
    let p := p + sg_size t in
    d ← vset (sg_d t) p x;
    d ← rfor (range_incl 1 (sg_log t)) (fun i d => st_update d (p / 2 ^ i)) d;
    Ok (Segtree (sg_n t) (sg_size t) (sg_log t) d).

  (** segtree.rs:42-45  get *)
  Definition st_get (t : segtree) (p : nat) : res S :=
    rassert (p <? sg_n t) ;;
    vget (sg_d t) (p + sg_size t).

  (** segtree.rs:55-66  body of the while loop of prod; state (l, r, sml, smr) *)
  Definition st_prod_step (d : list S) (s : nat * nat * S * S)
    : res ((nat * nat * S * S) + (S * S)) :=
    let '(l, r, sml, smr) := s in
    if l <? r then
      '(l, sml) ← (if Nat.odd l then x ← vget d l; Ok (l + 1, op sml x) else Ok (l, sml));
      '(r, smr) ← (if Nat.odd r then r ← nsub r 1; x ← vget d r; Ok (r, op x smr) else Ok (r, smr));
      Ok (inl (l / 2, r / 2, sml, smr))
    else Ok (inr (sml, smr)).

  (** segtree.rs:48-69  prod *)
  Definition st_prod (t : segtree) (l r : nat) : res S :=
    rassert ((l <=? r) && (r <=? sg_n t)) ;;
    let l := l + sg_size t in
    let r := r + sg_size t in
    '(sml, smr) ← rloop (r + 1) (st_prod_step (sg_d t)) (l, r, e, e);
    Ok (op sml smr).

  (** segtree.rs:72-74  all_prod *)
  Definition st_all_prod (t : segtree) : res S := vget (sg_d t) 1.

  (** segtree.rs:91-93  `while l % 2 == 0 { l >>= 1 }` (spins for l = 0) *)
  Definition strip_even (l : nat) : res nat :=
    rloop (l + 1) (fun l => if Nat.even l then Ok (inl (l / 2)) else Ok (inr l)) l.

  (** segtree.rs:95-103  descent inside max_right; result is `l - size` *)
  Definition st_descend_right (d : list S) (size : nat) (f : S -> bool) (l : nat) (sm : S) : res nat :=
    l ← rloop (size + 1) (fun '(l, sm) =>
           if l <? size then
             let l := 2 * l in
             x ← vget d l;
             let r := op sm x in
             if f r then Ok (inl (l + 1, r)) else Ok (inl (l, sm))
           else Ok (inr l)) (l, sm);
    nsub l size.

  (** segtree.rs:89-112  one iteration of the do-while of max_right *)
  Definition st_max_right_step (d : list S) (n size : nat) (f : S -> bool) (s : nat * S)
    : res ((nat * S) + nat) :=
    let '(l, sm) := s in
    l ← strip_even l;
    x ← vget d l;
    if negb (f (op sm x)) then
      r ← st_descend_right d size f l sm;
      Ok (inr r)
    else
      let sm := op sm x in
      let l := l + 1 in
      if negb (lowbit l =? l) then Ok (inl (l, sm)) else Ok (inr n).

  (** segtree.rs:78-114  max_right *)
  Definition st_max_right (t : segtree) (l : nat) (f : S -> bool) : res nat :=
    rassert (l <=? sg_n t) ;;
    rassert (f e) ;;
    if l =? sg_n t then Ok (sg_n t)
    else
      rloop (2 * sg_size t + 1) (st_max_right_step (sg_d t) (sg_n t) (sg_size t) f)
            (l + sg_size t, e).

  (** segtree.rs:131-133  `while r > 1 && r % 2 == 1 { r >>= 1 }` *)
  Definition strip_odd (r : nat) : res nat :=
    rloop (r + 1) (fun r => if (1 <? r) && Nat.odd r then Ok (inl (r / 2)) else Ok (inr r)) r.

  (** segtree.rs:135-143  descent inside min_left; result is `r + 1 - size` *)
  Definition st_descend_left (d : list S) (size : nat) (f : S -> bool) (r : nat) (sm : S) : res nat :=
    r ← rloop (size + 1) (fun '(r, sm) =>
           if r <? size then
             let r := 2 * r + 1 in
             x ← vget d r;
             let y := op x sm in
             if f y then r ← nsub r 1; Ok (inl (r, y)) else Ok (inl (r, sm))
           else Ok (inr r)) (r, sm);
    nsub (r + 1) size.

  (** segtree.rs:128-151  one iteration of the do-while of min_left *)
  Definition st_min_left_step (d : list S) (size : nat) (f : S -> bool) (s : nat * S)
    : res ((nat * S) + nat) :=
    let '(r, sm) := s in
    r ← nsub r 1;
    r ← strip_odd r;
    x ← vget d r;
    if negb (f (op x sm)) then
      l ← st_descend_left d size f r sm;
      Ok (inr l)
    else
      let sm := op x sm in
      if negb (lowbit r =? r) then Ok (inl (r, sm)) else Ok (inr 0).

  (** segtree.rs:117-153  min_left *)
  Definition st_min_left (t : segtree) (r : nat) (f : S -> bool) : res nat :=
    rassert (r <=? sg_n t) ;;
    rassert (f e) ;;
    if r =? 0 then Ok 0
    else
      rloop (2 * sg_size t + 1) (st_min_left_step (sg_d t) (sg_size t) f)
            (r + sg_size t, e).

  (** One public API call (segtree.rs:32-74); only the call/return interface, no new logic. *)
  Definition st_step (t : segtree) (o : sg_op S) : res (segtree * sg_out S) :=
    match o with
    | SgSet p x => t ← st_set t p x; Ok (t, SgUnit)
    | SgGet p => x ← st_get t p; Ok (t, SgVal x)
    | SgProd l r => x ← st_prod t l r; Ok (t, SgVal x)
    | SgAllProd => x ← st_all_prod t; Ok (t, SgVal x)
    end.
End Segtree.
Arguments segtree : clear implicits.
Arguments Segtree {S}.
