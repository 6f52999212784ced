(** The values of a primitive integer type, and its arithmetic in the two build profiles. *)
From Verif Require Import Prelude IntModel.
Open Scope Z_scope.

Definition fits (T : ity) (x : Z) : bool := (it_min T <=? x) && (x <=? it_max T).
Lemma fits_in T x : fits T x = true <-> in_ty T x.
Proof. unfold fits, in_ty. rewrite andb_true_iff, !Z.leb_le. reflexivity. Qed.
Lemma fits_wrap T x : 0 < it_bits T -> fits T (wrap T x) = true.
Proof. intros H. apply fits_in, wrap_in, H. Qed.

(** A value of type T. *)
Definition word (T : ity) : Type := { x : Z | fits T x = true }.
Definition wval {T} (w : word T) : Z := proj1_sig w.

Section Word.
  Context (T : ity) (HT : 0 < it_bits T).
  (** The value that the integer x wraps to. *)
  Definition word_of (x : Z) : word T := exist _ (wrap T x) (fits_wrap T x HT).

  (** src/misc/monoids.rs:36-62 (Additive, Multiplicative), src/data_structure/fenwick_tree.rs:26-75: `+`, `+=`, `*` and `-` on a
      primitive type in the release profile, where they wrap *)
  Definition wadd (x y : word T) : word T := word_of (wval x + wval y).
  Definition wmul (x y : word T) : word T := word_of (wval x * wval y).
  Definition wsub (x y : word T) : word T := word_of (wval x - wval y).
  (** The same in the dev profile, where they panic on overflow. *)
  Definition dev (exact : Z -> Z -> Z) (x y : word T) : res (word T) :=
    if fits T (exact (wval x) (wval y)) then Ok (word_of (exact (wval x) (wval y))) else Panic.
End Word.
Close Scope Z_scope.
