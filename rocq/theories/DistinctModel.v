(** Client code: how many different values a section of a list holds, with FenwickTree (of integers that do not overflow).  Not code of /repo. *)
From Verif Require Import Prelude FenwickModel.

(** One turn, for i in 0..n: x = a[i];
    if let Some(j) = last[x] { t.add(j, -1) } t.add(i, 1); last[x] = Some(i);
    out.push(qs[i].iter().map(|&l| t.sum(l, i + 1)).collect()) *)
Definition distinct_turn (a : list nat) (qs : list (list nat)) (i : nat) (s : fenwick Z * list (option nat) * list (list Z)) : res (fenwick Z * list (option nat) * list (list Z)) :=
  let '(t, last, out) := s in
  x ← vget a i;
  o ← vget last x;
  t ← match o with Some j => fw_add Z.add t j (-1)%Z | None => Ok t end;
  t ← fw_add Z.add t i 1%Z;
  last ← vset last x (Some i);
  ls ← vget qs i;
  r ← rfor ls (fun l r => z ← fw_sum 0%Z Z.add Z.sub t l (i + 1); Ok (r ++ [z])) [];
  Ok (t, last, out ++ [r]).
(** let mut t = FenwickTree::new(n); let mut last = vec![None; m]; the values of a are below m *)
Definition distinct_sweep (m : nat) (a : list nat) (qs : list (list nat)) : res (list (list Z)) :=
  s ← rfor (range 0 (length a)) (distinct_turn a qs) (fw_new 0%Z (length a), replicate m None, []);
  Ok s.2.
