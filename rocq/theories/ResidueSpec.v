(** Exact arithmetic, reduced once. *)
From Verif Require Import Prelude ResidueModel.
Open Scope Z_scope.

Lemma reduced_iff m x : reduced m x = true <-> 0 <= x < m.
Proof. unfold reduced. rewrite andb_true_iff, Z.leb_le, Z.ltb_lt. reflexivity. Qed.
Lemma reduced_mod m x : 0 < m -> reduced m (x mod m) = true.
Proof. intros H. apply reduced_iff, Z.mod_pos_bound, H. Qed.
(** The residue of an integer, and of a pair. *)
Definition residue_of (m : Z) (Hm : 0 < m) (x : Z) : residue m := exist _ (x mod m) (reduced_mod m x Hm).
Definition residue2_of (m : Z) (Hm : 0 < m) (x : Z * Z) : residue m * residue m := (residue_of m Hm x.1, residue_of m Hm x.2).

(** Over the integers: a block is the sum and the number of its terms; the map t -> f.1 * t + f.2 on every term; f after g. *)
Definition z_sum (x y : Z * Z) : Z * Z := (x.1 + y.1, x.2 + y.2).
Definition z_affine (f x : Z * Z) : Z * Z := (f.1 * x.1 + f.2 * x.2, x.2).
Definition z_comp (f g : Z * Z) : Z * Z := (f.1 * g.1, f.1 * g.2 + f.2).
Close Scope Z_scope.
