(** Clients of MinHeap (data_structure/min_heap.rs): sorting, keeping the k largest, merging, running medians.  Not code of /repo. *)
From Verif Require Import Prelude ArraySpec HeapModel.

Section Sort.
  Context {T : Type} (B : binheap (reverse T)).
  (** let mut h = MinHeap::new(); for x in v { h.push(x); }  while let Some(x) = h.pop() { out.push(x); } *)
  Definition heap_sort (v : list T) : res (list T) :=
    rloop (S (length v)) (fun '(h, out) =>
      match mh_pop B h with
      | (Some x, h) => Ok (inl (h, out ++ [x]))
      | (None, _) => Ok (inr out)
      end) (fold_left (mh_push B) v (mh_new B), []).

  (** for x in v { h.push(x); if h.len() > k { h.pop(); } } *)
  Definition top_k (k : nat) (v : list T) : bh B :=
    fold_left (fun h x => let h := mh_push B h x in if k <? mh_len B h then (mh_pop B h).2 else h) v (mh_new B).
End Sort.

Section Merge.
  Context {T : Type} (B : binheap (reverse (T * nat * nat))).
  (** if let Some(x) = vs[i].get(j) { h.push((x, i, j)); } *)
  Definition put_head (vs : list (list T)) (i j : nat) (h : bh B) : res (bh B) :=
    v ← vget vs i;
    Ok (match v !! j with Some x => mh_push B h (x, i, j) | None => h end).
  (** for i in 0..vs.len() { put(i, 0); }  while let Some((x, i, j)) = h.pop() { out.push(x); put(i, j + 1); } *)
  Definition merge_all (vs : list (list T)) : res (list T) :=
    h ← rfor (range 0 (length vs)) (fun i h => put_head vs i 0 h) (mh_new B);
    rloop (S (length (concat vs))) (fun '(h, out) =>
      match mh_pop B h with
      | (Some (x, i, j), h) => h ← put_head vs i (j + 1) h; Ok (inl (h, out ++ [x]))
      | (None, _) => Ok (inr out)
      end) (h, []).
End Merge.

Section Median.
  Context {T : Type} (leb : T -> T -> bool) (L : binheap (reverse (reverse T))) (H : binheap (reverse T)).
  (** lo: MinHeap<Reverse<T>>, hi: MinHeap<T>.
      if lo.peek().map_or(true, |m| x <= m.0) { lo.push(Reverse(x)); } else { hi.push(x); } *)
  Definition median_put (lo : bh L) (hi : bh H) (x : T) : bh L * bh H :=
    if match mh_peek L lo with Some m => leb x (rev_get m) | None => true end
    then (mh_push L lo (Reverse x), hi) else (lo, mh_push H hi x).
  (** if lo.len() > hi.len() + 1 { hi.push(lo.pop().unwrap().0); } else if lo.len() < hi.len() { lo.push(Reverse(hi.pop().unwrap())); } *)
  Definition median_balance (lo : bh L) (hi : bh H) : res (bh L * bh H) :=
    if S (mh_len H hi) <? mh_len L lo then
      let '(m, lo) := mh_pop L lo in m ← runwrap m; Ok (lo, mh_push H hi (rev_get m))
    else if mh_len L lo <? mh_len H hi then
      let '(m, hi) := mh_pop H hi in m ← runwrap m; Ok (mh_push L lo (Reverse m), hi)
    else Ok (lo, hi).
  (** One element: the answer is lo.peek().unwrap().0 *)
  Definition median_step (s : bh L * bh H) (x : T) : res (bh L * bh H * T) :=
    let '(lo, hi) := median_put s.1 s.2 x in
    s ← median_balance lo hi;
    m ← runwrap (mh_peek L s.1);
    Ok (s, rev_get m).
  Definition medians (v : list T) : res (list T) :=
    r ← run median_step (mh_new L, mh_new H) v;
    Ok r.2.
End Median.
