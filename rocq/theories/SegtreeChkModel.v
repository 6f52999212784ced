(** Model of src/data_structure/segtree.rs over a Monoid whose binary_operation may panic. *)
From Verif Require Import Prelude UtilModel ArraySpec SegtreeSpec SegtreeModel.

Section Segtree.
  (** src/traits/monoid.rs:1-5: binary_operation returns or panics. *)
  Context {S : Type} (e : S) (opc : S -> S -> res S).

  (** segtree.rs:155-157  fn update *)
  Definition stc_update (d : list S) (k : nat) : res (list S) :=
    a ← vget d (2 * k);
    b ← vget d (2 * k + 1);
    x ← opc a b;
    vset d k x.

  (** segtree.rs:15-29  From<Vec>::from *)
  Definition stc_from (v : list S) : res (segtree S) :=
    let n := length v in
    lg ← ceil_lg (Z.of_nat n mod 2 ^ 32);
    let log := Z.to_nat lg in
    let size := 2 ^ log in
    let d := replicate (2 * size) e in
    d ← copy_into d size v;
    d ← rfor (rev (range 1 size)) (fun i d => stc_update d i) d;
    Ok (Segtree n size log d).

  (** segtree.rs:32-39  set *)
  Definition stc_set (t : segtree S) (p : nat) (x : S) : res (segtree S) :=
    rassert (p <? sg_n t) ;;
    let p := p + sg_size t in
    d ← vset (sg_d t) p x;
    d ← rfor (range_incl 1 (sg_log t)) (fun i d => stc_update d (p / 2 ^ i)) d;
    Ok (Segtree (sg_n t) (sg_size t) (sg_log t) d).

  (** segtree.rs:55-66  body of the while loop of prod *)
  Definition stc_prod_step (d : list S) (s : nat * nat * S * S) : res ((nat * nat * S * S) + (S * S)) :=
    let '(l, r, sml, smr) := s in
    if l <? r then
      '(l, sml) ← (if Nat.odd l then x ← vget d l; y ← opc sml x; Ok (l + 1, y) else Ok (l, sml));
      '(r, smr) ← (if Nat.odd r then r ← nsub r 1; x ← vget d r; y ← opc x smr; Ok (r, y) else Ok (r, smr));
      Ok (inl (l / 2, r / 2, sml, smr))
    else Ok (inr (sml, smr)).

  (** segtree.rs:48-69  prod *)
  Definition stc_prod (t : segtree S) (l r : nat) : res S :=
    rassert ((l <=? r) && (r <=? sg_n t)) ;;
    let l := l + sg_size t in
    let r := r + sg_size t in
    '(sml, smr) ← rloop (r + 1) (stc_prod_step (sg_d t)) (l, r, e, e);
    opc sml smr.

  (** segtree.rs:95-103  descent inside max_right *)
  Definition stc_descend_right (d : list S) (size : nat) (f : S -> bool) (l : nat) (sm : S) : res nat :=
    l ← rloop (size + 1) (fun '(l, sm) =>
           if l <? size then
             let l := 2 * l in
             x ← vget d l;
             r ← opc sm x;
             if f r then Ok (inl (l + 1, r)) else Ok (inl (l, sm))
           else Ok (inr l)) (l, sm);
    nsub l size.

  (** segtree.rs:89-112  one iteration of the do-while of max_right; the operation is called once for the test and once
      more for the new sm *)
  Definition stc_max_right_step (d : list S) (n size : nat) (f : S -> bool) (s : nat * S) : res ((nat * S) + nat) :=
    let '(l, sm) := s in
    l ← strip_even l;
    x ← vget d l;
    y ← opc sm x;
    if negb (f y) then
      r ← stc_descend_right d size f l sm;
      Ok (inr r)
    else
      sm ← opc sm x;
      let l := l + 1 in
      if negb (lowbit l =? l) then Ok (inl (l, sm)) else Ok (inr n).

  (** segtree.rs:78-114  max_right *)
  Definition stc_max_right (t : segtree S) (l : nat) (f : S -> bool) : res nat :=
    rassert (l <=? sg_n t) ;;
    rassert (f e) ;;
    if l =? sg_n t then Ok (sg_n t)
    else
      rloop (2 * sg_size t + 1) (stc_max_right_step (sg_d t) (sg_n t) (sg_size t) f)
            (l + sg_size t, e).

  (** segtree.rs:135-143  descent inside min_left *)
  Definition stc_descend_left (d : list S) (size : nat) (f : S -> bool) (r : nat) (sm : S) : res nat :=
    r ← rloop (size + 1) (fun '(r, sm) =>
           if r <? size then
             let r := 2 * r + 1 in
             x ← vget d r;
             y ← opc x sm;
             if f y then r ← nsub r 1; Ok (inl (r, y)) else Ok (inl (r, sm))
           else Ok (inr r)) (r, sm);
    nsub (r + 1) size.

  (** segtree.rs:128-151  one iteration of the do-while of min_left *)
  Definition stc_min_left_step (d : list S) (size : nat) (f : S -> bool) (s : nat * S) : res ((nat * S) + nat) :=
    let '(r, sm) := s in
    r ← nsub r 1;
    r ← strip_odd r;
    x ← vget d r;
    y ← opc x sm;
    if negb (f y) then
      l ← stc_descend_left d size f r sm;
      Ok (inr l)
    else
      sm ← opc x sm;
      if negb (lowbit r =? r) then Ok (inl (r, sm)) else Ok (inr 0).

  (** segtree.rs:117-153  min_left *)
  Definition stc_min_left (t : segtree S) (r : nat) (f : S -> bool) : res nat :=
    rassert (r <=? sg_n t) ;;
    rassert (f e) ;;
    if r =? 0 then Ok 0
    else
      rloop (2 * sg_size t + 1) (stc_min_left_step (sg_d t) (sg_size t) f)
            (r + sg_size t, e).

  (** One public API call; get and all_prod (segtree.rs:42-45, 72-74) do not use the operation. *)
  Definition stc_step (t : segtree S) (o : sg_op S) : res (segtree S * sg_out S) :=
    match o with
    | SgSet p x => t ← stc_set t p x; Ok (t, SgUnit)
    | SgGet p => x ← st_get t p; Ok (t, SgVal x)
    | SgProd l r => x ← stc_prod t l r; Ok (t, SgVal x)
    | SgAllProd => x ← st_all_prod t; Ok (t, SgVal x)
    end.
End Segtree.
