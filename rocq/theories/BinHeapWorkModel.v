(** BinHeapModel.v and shortest_path.rs on it with comparisons that have side effects (for instance count themselves): every call of a
    comparison method of the elements is a call of cmpE. *)
From Verif Require Import Prelude Eff IntModel HeapModel DijkstraModel BinHeapModel.

Section BinHeap.
  Context {W A : Type} (cmpE : A -> A -> eff W comparison).
  Definition le_e (a b : A) : eff W bool := o <* cmpE a b ;* eret (match o with Gt => false | _ => true end).
  Definition ge_e (a b : A) : eff W bool := o <* cmpE a b ;* eret (match o with Lt => false | _ => true end).
  Definition lt_e (a b : A) : eff W bool := o <* cmpE a b ;* eret (match o with Lt => true | _ => false end).

  (** sift_up(0, pos) *)
  Definition sift_up_e (data : list A) (pos : nat) : eff W (list A) :=
    elt <* elift (vget data pos) ;*
    eloop (S pos) (fun '(data, pos) =>
      if 0 <? pos then
        let parent := (pos - 1) / 2 in
        p <* elift (vget data parent) ;*
        b <* le_e elt p ;*
        if b : bool then data <* elift (vset data pos elt) ;* eret (inr data)
        else data <* elift (vset data pos p) ;* eret (inl (data, parent))
      else data <* elift (vset data pos elt) ;* eret (inr data)) (data, pos).

  (** sift_down_range(pos, end) *)
  Definition sift_down_range_e (data : list A) (pos last : nat) : eff W (list A) :=
    elt <* elift (vget data pos) ;*
    eloop (S last) (fun '(data, pos) =>
      let child := 2 * pos + 1 in
      if child <=? last - 2 then
        a <* elift (vget data child) ;*
        b <* elift (vget data (child + 1)) ;*
        t <* le_e a b ;*
        let child := if t : bool then child + 1 else child in
        x <* elift (vget data child) ;*
        t <* ge_e elt x ;*
        if t : bool then data <* elift (vset data pos elt) ;* eret (inr data)
        else data <* elift (vset data pos x) ;* eret (inl (data, child))
      else if child =? last - 1 then
        x <* elift (vget data child) ;*
        t <* lt_e elt x ;*
        if t : bool then data <* elift (vset data pos x) ;* data <* elift (vset data child elt) ;* eret (inr data)
        else data <* elift (vset data pos elt) ;* eret (inr data)
      else data <* elift (vset data pos elt) ;* eret (inr data)) (data, pos).

  (** sift_down_to_bottom(0) *)
  Definition sift_down_to_bottom_e (data : list A) : eff W (list A) :=
    let last := length data in
    elt <* elift (vget data 0) ;*
    r <* eloop (S last) (fun '(data, pos) =>
      let child := 2 * pos + 1 in
      if child <=? last - 2 then
        a <* elift (vget data child) ;*
        b <* elift (vget data (child + 1)) ;*
        t <* le_e a b ;*
        let child := if t : bool then child + 1 else child in
        x <* elift (vget data child) ;*
        data <* elift (vset data pos x) ;* eret (inl (data, child))
      else if child =? last - 1 then
        x <* elift (vget data child) ;*
        data <* elift (vset data pos x) ;* eret (inr (data, child))
      else eret (inr (data, pos))) (data, 0) ;*
    let '(data, pos) := r in
    data <* elift (vset data pos elt) ;*
    sift_up_e data pos.

  (** push, pop, rebuild, rebuild_tail, append, into_sorted_vec *)
  Definition push_e (data : list A) (x : A) : eff W (list A) := sift_up_e (data ++ [x]) (length data).
  Definition pop_e (data : list A) : eff W (option A * list A) :=
    match rev data with
    | [] => eret (None, [])
    | item :: r =>
        match rev r with
        | [] => eret (Some item, [])
        | top :: rest => data <* sift_down_to_bottom_e (item :: rest) ;* eret (Some top, data)
        end
    end.
  Definition rebuild_e (data : list A) : eff W (list A) :=
    efor (rev (seq 0 (length data / 2))) (fun n data => sift_down_range_e data n (length data)) data.
  Definition rebuild_tail_e (data : list A) (start : nat) : eff W (list A) :=
    let len := length data in
    if start =? len then eret data else
    let tail := len - start in
    let better :=
      if start <? tail then true
      else if len <=? 2048 then 2 * len <? tail * Nat.log2 start
      else 2 * len <? tail * 11 in
    if better then rebuild_e data else efor (range start len) (fun i data => sift_up_e data i) data.
  Definition append_e (data other : list A) : eff W (list A * list A) :=
    let '(data, other) := if length data <? length other then (other, data) else (data, other) in
    data <* rebuild_tail_e (data ++ other) (length data) ;*
    eret (data, []).
  Definition into_sorted_vec_e (data : list A) : eff W (list A) :=
    efor (rev (range 1 (length data))) (fun last data =>
      a <* elift (vget data 0) ;* b <* elift (vget data last) ;* data <* elift (vset data 0 b) ;* data <* elift (vset data last a) ;*
      sift_down_range_e data 0 last) data.
End BinHeap.

(** MinHeap on it: min_heap.rs:10-54.  Reverse(a) against Reverse(b) asks b against a. *)
Definition rev_cmp_e {W T} (cmpE : T -> T -> eff W comparison) (a b : reverse T) : eff W comparison := cmpE (rev_get b) (rev_get a).
Definition step_e {W T} (cmpE : T -> T -> eff W comparison) (h : list (reverse T)) (o : mh_op T) : eff W (list (reverse T) * mh_out T) :=
  let c := rev_cmp_e cmpE in
  match o with
  | MhPush x => h <* push_e c h (Reverse x) ;* eret (h, MhUnit)
  | MhPop => r <* pop_e c h ;* eret (r.2, MhOpt (match r.1 with Some x => Some (rev_get x) | None => None end))
  | MhPeek => eret (h, MhOpt (match bin_peek h with Some x => Some (rev_get x) | None => None end))
  | MhLen => eret (h, MhNum (length h))
  | MhAppend xs =>
      other <* efor xs (fun x other => push_e c other (Reverse x)) [] ;*
      r <* append_e c h other ;*
      eret (r.1, MhNum (length r.2))
  | MhIsEmpty => eret (h, MhBool (length h =? 0))
  | MhClear => eret ([], MhUnit)
  end.

(** shortest_path.rs:2-19  dijkstra with this heap: the code of DijkstraModel.v; cmpE compares (distance, vertex) pairs *)
Section Dijkstra.
  Context {W : Type} (cmpE : Z * nat -> Z * nat -> eff W comparison).
  Definition relax_e (d : Z) (e : nat * Z) (st : list (option Z) * list (reverse (Z * nat))) : eff W (list (option Z) * list (reverse (Z * nat))) :=
    let '(dis, q) := st in
    let '(v, c) := e in
    dv <* elift (vget dis v) ;*
    n <* elift (iadd usize d c) ;*
    if match dv with None => true | Some x => (n <? x)%Z end
    then dis <* elift (vset dis v (Some n)) ;* q <* push_e (rev_cmp_e cmpE) q (Reverse (n, v)) ;* eret (dis, q)
    else eret (dis, q).
  Definition dijkstra_step_e (g : wgraph) (st : list (option Z) * list (reverse (Z * nat)))
    : eff W (list (option Z) * list (reverse (Z * nat)) + list (option Z)) :=
    let '(dis, q) := st in
    r <* pop_e (rev_cmp_e cmpE) q ;*
    match r with
    | (None, _) => eret (inr dis)
    | (Some (Reverse (d, u)), q) =>
        du <* elift (vget dis u) ;*
        if decide (Some d = du) then
          es <* elift (vget g u) ;*
          st <* efor es (relax_e d) (dis, q) ;*
          eret (inl st)
        else eret (inl (dis, q))
    end.
  Definition dijkstra_e (g : wgraph) (s : nat) : eff W (list (option Z)) :=
    let dis := replicate (length g) None in
    q <* push_e (rev_cmp_e cmpE) [] (Reverse (0%Z, s)) ;*
    dis <* elift (vset dis s (Some 0%Z)) ;*
    eloop (length (concat g) + 2) (dijkstra_step_e g) (dis, q).
End Dijkstra.
