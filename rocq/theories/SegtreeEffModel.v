(** Model of src/data_structure/segtree.rs over a Monoid whose binary_operation, and predicates of the searches, have side effects
    and may panic: the code of SegtreeChkModel.v with the state [W] those functions share threaded through. *)
From Verif Require Import Prelude Eff UtilModel ArraySpec LazySpec EffSpec SegtreeModel SegtreeChkModel.

Section Segtree.
  (** src/traits/monoid.rs:1-5: binary_operation returns or panics, and acts on W. *)
  Context {W S : Type} (e : S) (opE : S -> S -> eff W S).

  (** segtree.rs:155-157  fn update *)
  Definition ste_update (d : list S) (k : nat) : eff W (list S) :=
    a <* elift (vget d (2 * k)) ;*
    b <* elift (vget d (2 * k + 1)) ;*
    x <* opE a b ;*
    elift (vset d k x).

  (** segtree.rs:15-29  From<Vec>::from *)
  Definition ste_from (v : list S) : eff W (segtree S) :=
    let n := length v in
    lg <* elift (ceil_lg (Z.of_nat n mod 2 ^ 32)) ;*
    let log := Z.to_nat lg in
    let size := 2 ^ log in
    let d := replicate (2 * size) e in
    d <* elift (copy_into d size v) ;*
    d <* efor (rev (range 1 size)) (fun i d => ste_update d i) d ;*
    eret (Segtree n size log d).

  (** segtree.rs:32-39  set *)
  Definition ste_set (t : segtree S) (p : nat) (x : S) : eff W (segtree S) :=
    elift (rassert (p <? sg_n t)) ;;*
    let p := p + sg_size t in
    d <* elift (vset (sg_d t) p x) ;*
    d <* efor (range_incl 1 (sg_log t)) (fun i d => ste_update d (p / 2 ^ i)) d ;*
    eret (Segtree (sg_n t) (sg_size t) (sg_log t) d).

  (** segtree.rs:55-66  body of the while loop of prod *)
  Definition ste_prod_step (d : list S) (s : nat * nat * S * S) : eff W ((nat * nat * S * S) + (S * S)) :=
    let '(l, r, sml, smr) := s in
    if l <? r then
      '(l, sml) <* (if Nat.odd l then x <* elift (vget d l) ;* y <* opE sml x ;* eret (l + 1, y) else eret (l, sml)) ;*
      '(r, smr) <* (if Nat.odd r then r <* elift (nsub r 1) ;* x <* elift (vget d r) ;* y <* opE x smr ;* eret (r, y) else eret (r, smr)) ;*
      eret (inl (l / 2, r / 2, sml, smr))
    else eret (inr (sml, smr)).

  (** segtree.rs:48-69  prod *)
  Definition ste_prod (t : segtree S) (l r : nat) : eff W S :=
    elift (rassert ((l <=? r) && (r <=? sg_n t))) ;;*
    let l := l + sg_size t in
    let r := r + sg_size t in
    '(sml, smr) <* eloop (r + 1) (ste_prod_step (sg_d t)) (l, r, e, e) ;*
    opE sml smr.

  (** segtree.rs:95-103  descent inside max_right *)
  Definition ste_descend_right (d : list S) (size : nat) (f : S -> eff W bool) (l : nat) (sm : S) : eff W nat :=
    l <* eloop (size + 1) (fun '(l, sm) =>
           if l <? size then
             let l := 2 * l in
             x <* elift (vget d l) ;*
             r <* opE sm x ;*
             b <* f r ;*
             if b : bool then eret (inl (l + 1, r)) else eret (inl (l, sm))
           else eret (inr l)) (l, sm) ;*
    elift (nsub l size).

  (** segtree.rs:89-112  one iteration of the do-while of max_right; the operation is called once for the test and once
      more for the new sm *)
  Definition ste_max_right_step (d : list S) (n size : nat) (f : S -> eff W bool) (s : nat * S) : eff W ((nat * S) + nat) :=
    let '(l, sm) := s in
    l <* elift (strip_even l) ;*
    x <* elift (vget d l) ;*
    y <* opE sm x ;*
    b <* f y ;*
    if negb b then
      r <* ste_descend_right d size f l sm ;*
      eret (inr r)
    else
      sm <* opE sm x ;*
      let l := l + 1 in
      if negb (lowbit l =? l) then eret (inl (l, sm)) else eret (inr n).

  (** segtree.rs:78-114  max_right *)
  Definition ste_max_right (t : segtree S) (l : nat) (f : S -> eff W bool) : eff W nat :=
    elift (rassert (l <=? sg_n t)) ;;*
    b <* f e ;*
    elift (rassert b) ;;*
    if l =? sg_n t then eret (sg_n t)
    else
      eloop (2 * sg_size t + 1) (ste_max_right_step (sg_d t) (sg_n t) (sg_size t) f)
            (l + sg_size t, e).

  (** segtree.rs:135-143  descent inside min_left *)
  Definition ste_descend_left (d : list S) (size : nat) (f : S -> eff W bool) (r : nat) (sm : S) : eff W nat :=
    r <* eloop (size + 1) (fun '(r, sm) =>
           if r <? size then
             let r := 2 * r + 1 in
             x <* elift (vget d r) ;*
             y <* opE x sm ;*
             b <* f y ;*
             if b : bool then r <* elift (nsub r 1) ;* eret (inl (r, y)) else eret (inl (r, sm))
           else eret (inr r)) (r, sm) ;*
    elift (nsub (r + 1) size).

  (** segtree.rs:128-151  one iteration of the do-while of min_left *)
  Definition ste_min_left_step (d : list S) (size : nat) (f : S -> eff W bool) (s : nat * S) : eff W ((nat * S) + nat) :=
    let '(r, sm) := s in
    r <* elift (nsub r 1) ;*
    r <* elift (strip_odd r) ;*
    x <* elift (vget d r) ;*
    y <* opE x sm ;*
    b <* f y ;*
    if negb b then
      l <* ste_descend_left d size f r sm ;*
      eret (inr l)
    else
      sm <* opE x sm ;*
      if negb (lowbit r =? r) then eret (inl (r, sm)) else eret (inr 0).

  (** segtree.rs:117-153  min_left *)
  Definition ste_min_left (t : segtree S) (r : nat) (f : S -> eff W bool) : eff W nat :=
    elift (rassert (r <=? sg_n t)) ;;*
    b <* f e ;*
    elift (rassert b) ;;*
    if r =? 0 then eret 0
    else
      eloop (2 * sg_size t + 1) (ste_min_left_step (sg_d t) (sg_size t) f)
            (r + sg_size t, e).

  (** One public API call; get and all_prod (segtree.rs:42-45, 72-74) do not use the operation.  There are no maps. *)
  Definition ste_step (t : segtree S) (o : ef_op W S Empty_set) : eff W (segtree S * lz_out S) :=
    match o with
    | EfSet p x => t <* ste_set t p x ;* eret (t, LzUnit)
    | EfGet p => x <* elift (st_get t p) ;* eret (t, LzVal x)
    | EfProd l r => x <* ste_prod t l r ;* eret (t, LzVal x)
    | EfAllProd => x <* elift (st_all_prod t) ;* eret (t, LzVal x)
    | EfApply _ f | EfApplyRange _ _ f => match f with end
    | EfMaxRight l _ g => i <* ste_max_right t l g ;* eret (t, LzIdx i)
    | EfMinLeft r _ g => i <* ste_min_left t r g ;* eret (t, LzIdx i)
    end.
End Segtree.

(** The same calls of SegtreeChkModel.v *)
Definition stc_call {S} (e : S) (opc : S -> S -> res S) (t : segtree S) (o : lz_op S Empty_set) : res (segtree S * lz_out S) :=
  match o with
  | LzSet p x => t ← stc_set opc t p x; Ok (t, LzUnit)
  | LzGet p => x ← st_get t p; Ok (t, LzVal x)
  | LzProd l r => x ← stc_prod e opc t l r; Ok (t, LzVal x)
  | LzAllProd => x ← st_all_prod t; Ok (t, LzVal x)
  | LzApply _ f | LzApplyRange _ _ f => match f with end
  | LzMaxRight l g => i ← stc_max_right e opc t l g; Ok (t, LzIdx i)
  | LzMinLeft r g => i ← stc_min_left e opc t r g; Ok (t, LzIdx i)
  end.
