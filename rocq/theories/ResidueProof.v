(** Modint arithmetic is the image of exact arithmetic under reduction. *)
From Coq Require Import Eqdep_dec.
From Verif Require Import Prelude IntModel ArraySpec SegtreeSpec LazySpec PartialOps ModIntModel IMathSpec ModIntSpec ModIntProof ResidueModel ResidueSpec.
Open Scope Z_scope.

Lemma residue_eq m (x y : residue m) : rval x = rval y -> x = y.
Proof. destruct x as [x Hx], y as [y Hy]. unfold rval. cbn [proj1_sig]. intros ->. f_equal. apply UIP_dec, bool_dec. Qed.
Lemma rval_in m (x : residue m) : 0 <= rval x < m.
Proof. apply reduced_iff. exact (proj2_sig x). Qed.

Section Residue.
  Context (m : Z) (Hm : 0 < m).
  Local Notation r := (residue_of m Hm).
  Local Notation r2 := (residue2_of m Hm).
  Definition radd (x y : residue m) : residue m := r (rval x + rval y).
  Definition rmul (x y : residue m) : residue m := r (rval x * rval y).

  Lemma r_val x : rval (r x) = x mod m.
  Proof. reflexivity. Qed.
  Lemma r_of_val x : r (rval x) = x.
  Proof. apply residue_eq. rewrite r_val. apply Z.mod_small, rval_in. Qed.
  Lemma r_add x y : r (x + y) = radd (r x) (r y).
  Proof. apply residue_eq. unfold radd. rewrite !r_val. rewrite <- Zplus_mod. reflexivity. Qed.
  Lemma r_mul x y : r (x * y) = rmul (r x) (r y).
  Proof. apply residue_eq. unfold rmul. rewrite !r_val. rewrite <- Zmult_mod. reflexivity. Qed.
  Lemma r_onto (P : residue m -> Prop) : (forall x, P (r x)) -> forall x, P x.
  Proof. intros H x. rewrite <- r_of_val. apply H. Qed.

  (** What the modint operators compute. *)
  Lemma as_residue_mod x : as_residue m (Ok (x mod m)) = Ok (r x).
  Proof.
    unfold as_residue. destruct (decide _) as [H|H]; [|contradiction (H (reduced_mod m x Hm))]. f_equal. apply residue_eq. reflexivity.
  Qed.
  Context (c : modctx) (Hm31 : m <= 2 ^ 31) (Hc : modint_ctx m c).
  Lemma modint_ok : ctx_ok c m.
  Proof.
    destruct Hc as [[h ->]|(br & E & ->)]; [apply static_ctx_ok; lia|]. unfold set_modulus in E.
    destruct (Z.eqb_spec m 0); [discriminate|]. apply dynamic_ctx_ok; [lia|exact E].
  Qed.
  Lemma rc_add_ok x y : rc_add m c x y = Ok (radd x y).
  Proof.
    destruct modint_ok as [E _]. unfold rc_add. rewrite E, add_ok by (try lia; apply rval_in). apply as_residue_mod.
  Qed.
  Lemma rc_mul_ok x y : rc_mul m c x y = Ok (rmul x y).
  Proof.
    destruct modint_ok as [_ [E _]]. unfold rc_mul. rewrite E by apply rval_in. apply as_residue_mod.
  Qed.

  (** Pairs. *)
  Local Notation R2 := (residue m * residue m)%type.
  Definition r_sum (x y : R2) : R2 := (radd x.1 y.1, radd x.2 y.2).
  Definition r_affine (f x : R2) : R2 := (radd (rmul f.1 x.1) (rmul f.2 x.2), x.2).
  Definition r_comp (f g : R2) : R2 := (rmul f.1 g.1, radd (rmul f.1 g.2) f.2).
  Lemma rc_sum_ok x y : rc_sum_op m c x y = Ok (r_sum x y).
  Proof. unfold rc_sum_op. rewrite !rc_add_ok. reflexivity. Qed.
  Lemma rc_affine_ok f x : rc_affine m c f x = Ok (r_affine f x).
  Proof. unfold rc_affine. rewrite !rc_mul_ok. cbn [mbind res_bind]. rewrite rc_add_ok. reflexivity. Qed.
  Lemma rc_comp_ok f g : rc_comp m c f g = Ok (r_comp f g).
  Proof. unfold rc_comp. rewrite !rc_mul_ok. cbn [mbind res_bind]. rewrite rc_add_ok. reflexivity. Qed.
  Lemma rc_then_ok f g : rc_then m c f g = Ok (r_comp g f).
  Proof. apply rc_comp_ok. Qed.

  Lemma r2_onto (P : R2 -> Prop) : (forall x, P (r2 x)) -> forall x, P x.
  Proof. intros H [x y]. rewrite <- (r_of_val x), <- (r_of_val y). apply (H (rval x, rval y)). Qed.

  Lemma r2_sum x y : r2 (z_sum x y) = r_sum (r2 x) (r2 y).
  Proof. unfold residue2_of, z_sum, r_sum. cbn [fst snd]. rewrite !r_add. reflexivity. Qed.
  Lemma r2_affine f x : r2 (z_affine f x) = r_affine (r2 f) (r2 x).
  Proof. unfold residue2_of, z_affine, r_affine. cbn [fst snd]. rewrite r_add, !r_mul. reflexivity. Qed.
  Lemma r2_comp f g : r2 (z_comp f g) = r_comp (r2 f) (r2 g).
  Proof. unfold residue2_of, z_comp, r_comp. cbn [fst snd]. rewrite r_add, !r_mul. reflexivity. Qed.
End Residue.

(** Laws of the exact operations, and of their images. *)
Definition hom_onto {A B} (h : A -> B) : Prop := forall P : B -> Prop, (forall x, P (h x)) -> forall y, P y.
Lemma hom_monoid {A B} (h : A -> B) e op op' : hom_onto h -> (forall x y, h (op x y) = op' (h x) (h y)) -> monoid_laws e op -> monoid_laws (h e) op'.
Proof.
  intros O H [L1 L2 L3]. split.
  - intros x y z. revert x; apply O; intros x. revert y; apply O; intros y. revert z; apply O; intros z. rewrite <- !H, L1. reflexivity.
  - intros x. revert x; apply O; intros x. rewrite <- H, L2. reflexivity.
  - intros x. revert x; apply O; intros x. rewrite <- H, L3. reflexivity.
Qed.
Lemma hom_maps {A B F G} (h : A -> B) (hf : F -> G) op op' idm mp mp' cp cp' : hom_onto h -> hom_onto hf -> (forall x y, h (op x y) = op' (h x) (h y)) ->
  (forall f x, h (mp f x) = mp' (hf f) (h x)) -> (forall f g, hf (cp f g) = cp' (hf f) (hf g)) -> map_laws op idm mp cp -> map_laws op' (hf idm) mp' cp'.
Proof.
  intros O Of H1 H2 H3 [L1 L2 L3]. split.
  - intros x. revert x; apply O; intros x. rewrite <- H2, L1. reflexivity.
  - intros f g x. revert x; apply O; intros x. revert f; apply Of; intros f. revert g; apply Of; intros g. rewrite <- H3, <- !H2, L2. reflexivity.
  - intros f x y. revert x; apply O; intros x. revert y; apply O; intros y. revert f; apply Of; intros f. rewrite <- H1, <- !H2, <- H1, L3. reflexivity.
Qed.
Lemma zadd_monoid : monoid_laws 0 Z.add.
Proof. split; intros; lia. Qed.
Lemma zmul_monoid : monoid_laws 1 Z.mul.
Proof. split; intros; lia. Qed.
Lemma zsum_monoid : monoid_laws (0, 0) z_sum.
Proof. split; unfold z_sum; intros; repeat match goal with x : (Z * Z)%type |- _ => destruct x end; cbn [fst snd]; f_equal; lia. Qed.
Lemma zcomp_monoid : monoid_laws (1, 0) z_comp.
Proof. split; unfold z_comp; intros; repeat match goal with x : (Z * Z)%type |- _ => destruct x end; cbn [fst snd]; f_equal; lia. Qed.
Lemma zthen_monoid : monoid_laws (1, 0) (fun f g => z_comp g f).
Proof. split; unfold z_comp; intros; repeat match goal with x : (Z * Z)%type |- _ => destruct x end; cbn [fst snd]; f_equal; lia. Qed.
Lemma zaffine_maps : map_laws z_sum (1, 0) z_affine z_comp.
Proof. split; unfold z_sum, z_affine, z_comp; intros; repeat match goal with x : (Z * Z)%type |- _ => destruct x end; cbn [fst snd]; f_equal; lia. Qed.
Close Scope Z_scope.
