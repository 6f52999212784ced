(** Client code: the circle counting game with FenwickTree (of integers that do not overflow).  Not code of /repo. *)
From Verif Require Import Prelude FenwickModel LexModel.

(** One turn, with left people in the circle:
    pos = (pos + k) % left; let x = t.partition_point(|s| s <= pos); t.add(x, -1); out.push(x) *)
Definition josephus_turn (k left : nat) (s : fenwick Z * nat * list nat) : res (fenwick Z * nat * list nat) :=
  let '(t, pos, out) := s in
  let pos := (pos + k) mod left in
  x ← fw_partition_point 0%Z Z.add t (fun q => (q <=? Z.of_nat pos)%Z);
  t ← fw_add Z.add t x (-1)%Z;
  Ok (t, pos, out ++ [x]).
(** let mut t = FenwickTree::new(n); for x in 0..n { t.add(x, 1) } let mut pos = 0; for left in (1..=n).rev() { .. } *)
Definition josephus (n k : nat) : res (list nat) :=
  t ← all_ones n;
  s ← rfor (rev (range_incl 1 n)) (josephus_turn k) (t, 0, []);
  Ok s.2.
