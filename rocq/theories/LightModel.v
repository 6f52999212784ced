(** Client code: sections of a list with a small sum, with Segtree over the addition (of integers that do not overflow).  Not code of /repo. *)
From Verif Require Import Prelude UtilModel SegtreeModel.

(** One turn, for l in 0..n: let r = t.max_right(l, |s| s <= k); total += r - l; best = max(best, r - l) *)
Definition light_turn (k : nat) (t : segtree nat) (l : nat) (s : nat * nat) : res (nat * nat) :=
  r ← st_max_right 0 Nat.add t l (fun y => y <=? k);
  d ← nsub r l;
  Ok (s.1 + d, Nat.max s.2 d).
(** let t = Segtree::<Add>::from(v) *)
Definition light (k : nat) (v : list nat) : res (nat * nat) :=
  t ← st_from 0 Nat.add v;
  rfor (range 0 (length v)) (light_turn k t) (0, 0).
