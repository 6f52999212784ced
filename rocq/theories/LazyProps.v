(** Property theorems for src/data_structure/lazy_segtree.rs (C04, C05). *)
From Verif Require Import Prelude UtilModel ArraySpec SegtreeModel LazySpec LazyModel LazyTop.

(** C05: any history, searches included, does what is allowed on a plain array.  The searches leave the
    plain array alone, so no later call can tell that they were made. *)
Theorem C05_lazy_searches : forall {S F : Type} (e : S) (op : S -> S -> S)
    (idm : F) (mapping : F -> S -> S) (comp : F -> F -> F),
  monoid_laws e op -> map_laws op idm mapping comp ->
  forall (v : list S) (ops : list (lz_op S F)), (Z.of_nat (length v) < 2 ^ 32)%Z ->
    lz_allowed_run e op mapping v ops
      (fmap snd (t ← lt_from e op idm v; run (lt_step e op idm mapping comp) t ops)).
Proof.
  intros S F e op idm mapping comp L ML v ops Hv.
  destruct (from_inv e op idm mapping comp L ML v Hv) as (t & -> & I).
  apply (run_allowed e op idm mapping comp L ML ops t v I).
Qed.
Print Assumptions C05_lazy_searches.

(** C05, constructor [new(n)]. *)
Theorem C05_lazy_new_searches : forall {S F : Type} (e : S) (op : S -> S -> S)
    (idm : F) (mapping : F -> S -> S) (comp : F -> F -> F),
  monoid_laws e op -> map_laws op idm mapping comp ->
  forall (n : nat) (ops : list (lz_op S F)), (Z.of_nat n < 2 ^ 32)%Z ->
    lz_allowed_run e op mapping (replicate n e) ops
      (fmap snd (t ← lt_new e op idm n; run (lt_step e op idm mapping comp) t ops)).
Proof.
  intros S F e op idm mapping comp L ML n ops Hn. apply (C05_lazy_searches e op idm mapping comp L ML).
  rewrite replicate_length. exact Hn.
Qed.
Print Assumptions C05_lazy_new_searches.

(** C04: histories of set/get/prod/all_prod/apply/apply_range answer (and panic) exactly as a plain array. *)
Theorem C04_lazy_refines_array : forall {S F : Type} (e : S) (op : S -> S -> S)
    (idm : F) (mapping : F -> S -> S) (comp : F -> F -> F),
  monoid_laws e op -> map_laws op idm mapping comp ->
  forall (v : list S) (ops : list (lz_op S F)), (Z.of_nat (length v) < 2 ^ 32)%Z ->
    Forall (fun o => is_search o = false) ops ->
    fmap snd (t ← lt_from e op idm v; run (lt_step e op idm mapping comp) t ops)
    = fmap snd (run (lz_spec_step e op mapping) v ops).
Proof.
  intros S F e op idm mapping comp L ML v ops Hv Hs.
  apply (allowed_run_eq e op mapping ops v); [exact Hs|].
  apply (C05_lazy_searches e op idm mapping comp L ML v ops Hv).
Qed.
Print Assumptions C04_lazy_refines_array.

(** C04, constructor [new(n)]: the array of n identities. *)
Theorem C04_lazy_new_refines_array : forall {S F : Type} (e : S) (op : S -> S -> S)
    (idm : F) (mapping : F -> S -> S) (comp : F -> F -> F),
  monoid_laws e op -> map_laws op idm mapping comp ->
  forall (n : nat) (ops : list (lz_op S F)), (Z.of_nat n < 2 ^ 32)%Z ->
    Forall (fun o => is_search o = false) ops ->
    fmap snd (t ← lt_new e op idm n; run (lt_step e op idm mapping comp) t ops)
    = fmap snd (run (lz_spec_step e op mapping) (replicate n e) ops).
Proof.
  intros S F e op idm mapping comp L ML n ops Hn Hs. apply (C04_lazy_refines_array e op idm mapping comp L ML).
  - rewrite replicate_length. exact Hn.
  - exact Hs.
Qed.
Print Assumptions C04_lazy_new_refines_array.

(** C04 and C05, constructor [default()]: the empty array. *)
Theorem C04_lazy_default_refines_array : forall {S F : Type} (e : S) (op : S -> S -> S)
    (idm : F) (mapping : F -> S -> S) (comp : F -> F -> F),
  monoid_laws e op -> map_laws op idm mapping comp ->
  forall (ops : list (lz_op S F)),
    lz_allowed_run e op mapping [] ops
      (fmap snd (t ← lt_default e op idm; run (lt_step e op idm mapping comp) t ops)) /\
    (Forall (fun o => is_search o = false) ops ->
     fmap snd (t ← lt_default e op idm; run (lt_step e op idm mapping comp) t ops)
     = fmap snd (run (lz_spec_step e op mapping) [] ops)).
Proof.
  intros S F e op idm mapping comp L ML ops. split.
  - apply (C05_lazy_searches e op idm mapping comp L ML []). cbn. lia.
  - apply (C04_lazy_refines_array e op idm mapping comp L ML []). cbn. lia.
Qed.
Print Assumptions C04_lazy_default_refines_array.

(** C04, why the bound on the length: longer vectors are rejected by a panic (`n as u32` truncates). *)
Theorem C04_lazy_from_too_long : forall {S F : Type} (e : S) (op : S -> S -> S) (idm : F) (v : list S),
  (2 ^ 32 <= Z.of_nat (length v))%Z -> lt_from e op idm v = Panic.
Proof. exact @from_huge. Qed.
Print Assumptions C04_lazy_from_too_long.

(** Hypotheses are met by non-commutative operations: list concatenation, and affine maps x -> a*x+b
    applied to every entry of a list. *)
Definition aff_map (f : nat * nat) (l : list nat) : list nat := map (fun x => f.1 * x + f.2) l.
Definition aff_comp (f g : nat * nat) : nat * nat := (f.1 * g.1, f.1 * g.2 + f.2).

Example lazy_app_laws : monoid_laws (@nil nat) (@app nat).
Proof. split; [intros; apply app_assoc|reflexivity|intros; apply app_nil_r]. Qed.

Example lazy_aff_laws : map_laws (@app nat) (1, 0) aff_map aff_comp.
Proof.
  split.
  - intros x. unfold aff_map. rewrite <- (map_id x) at 2. apply map_ext. intros y. cbn [fst snd]. lia.
  - intros f g x. unfold aff_map. rewrite map_map. apply map_ext. intros y. unfold aff_comp. cbn [fst snd]. lia.
  - intros f x y. apply map_app.
Qed.

Example C04_nonvacuous :
  fmap snd (t ← lt_from [] (@app nat) (1, 0) [[1];[2];[3];[4];[5]];
            run (lt_step [] (@app nat) (1, 0) aff_map aff_comp) t
              [LzApplyRange 0 4 (2, 1); LzApplyRange 1 5 (1, 10); LzSet 2 [7;8]; LzGet 1; LzApply 4 (0, 3); LzProd 1 5; LzAllProd])
  = Ok [LzUnit; LzUnit; LzUnit; LzVal [15]; LzUnit; LzVal [15;7;8;19;3]; LzVal [3;15;7;8;19;3]].
Proof. vm_compute. reflexivity. Qed.

Example C05_nonvacuous :
  fmap snd (t ← lt_from [] (@app nat) (1, 0) [[1];[2];[3];[4];[5]];
            run (lt_step [] (@app nat) (1, 0) aff_map aff_comp) t
              [LzApplyRange 0 4 (2, 1); LzMaxRight 1 (fun s => length s <=? 2);
               LzMinLeft 4 (fun s => length s <=? 3); LzProd 0 5])
  = Ok [LzUnit; LzIdx 3; LzIdx 1; LzVal [3;5;7;9;5]].
Proof. vm_compute. reflexivity. Qed.
