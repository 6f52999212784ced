(** Client code: sections of a list and their greatest values, with Segtree over the maximum (of integers that do not overflow).  Not code of /repo. *)
From Verif Require Import Prelude SegtreeModel.

(** One turn, for i in 0..n: let x = v[i]; let r = t.max_right(i + 1, |y| y <= x); let l = t.min_left(i, |y| y < x);
    out.push((l, r)); total += x * (i + 1 - l) * (r - i) *)
Definition span_turn (v : list nat) (t : segtree nat) (i : nat) (s : list (nat * nat) * nat) : res (list (nat * nat) * nat) :=
  x ← vget v i;
  r ← st_max_right 0 Nat.max t (i + 1) (fun y => y <=? x);
  l ← st_min_left 0 Nat.max t i (fun y => y <? x);
  Ok (s.1 ++ [(l, r)], s.2 + x * (i + 1 - l) * (r - i)).
(** let t = Segtree::<Max>::from(v), with identity 0 *)
Definition spans (v : list nat) : res (list (nat * nat) * nat) :=
  t ← st_from 0 Nat.max v;
  rfor (range 0 (length v)) (span_turn v t) ([], 0).
