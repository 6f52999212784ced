(** Strings inserted after build, in terms of the inserted strings only. *)
From Verif Require Import Prelude AhoSpec.

(** Every nonempty prefix of s ends with a nonempty prefix of a string inserted before build.  This holds if s is itself such a
    prefix, or if every byte of s is the first byte of such a string. *)
Definition walkable (ins : list (list nat * nat)) (s : list nat) : Prop :=
  forall p, p `prefix_of` s -> p <> [] -> exists u, u <> [] /\ u `suffix_of` p /\ exists x, x ∈ ins /\ u `prefix_of` x.1.
(** Where the late inserts land: not on the string itself but on its longest suffix that is a prefix of an early string. *)
Definition lands (ins late landed : list (list nat * nat)) : Prop := Forall2 (fun x y => longest_live ins x.1 y.1 /\ y.2 = x.2) late landed.
(** What is listed at a position where the text read so far is t and its longest live suffix is s: the index of s, early or late,
    and of the other suffixes those that were indexed early. *)
Definition late_matches (ins landed : list (list nat * nat)) (t s : list nat) : list nat :=
  omap (fun u => if decide (u = s) then last_index (ins ++ landed) u else match last_index ins u with Some _ => last_index (ins ++ landed) u | None => None end) (suffixes t).
