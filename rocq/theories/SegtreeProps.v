(** Property theorems for src/data_structure/segtree.rs (C01-C03). *)
From Verif Require Import Prelude UtilModel ArraySpec SegtreeSpec SegtreeModel SegtreeProof.

Section Statements.
  Context {S : Type} (e : S) (op : S -> S -> S) (L : monoid_laws e op).

  Lemma segtree_refines_array (v : list S) (ops : list (sg_op S)) :
    (Z.of_nat (length v) < 2 ^ 32)%Z ->
    fmap snd (t ← st_from e op v; run (st_step e op) t ops)
    = fmap snd (run (sg_spec_step e op) v ops).
  Proof.
    intros Hv. destruct (st_from_inv e op v Hv) as (t & -> & I). cbn [mbind res_bind].
    pose proof (run_refines e op L ops t v I) as H.
    destruct (run (sg_spec_step e op) v ops) as [[a' outs]| |]; [|rewrite H; reflexivity|contradiction].
    destruct H as (t' & -> & _). reflexivity.
  Qed.

  (** A tree [t] reached from [from v] by the calls [ops]; [a] is what a plain array holds then. *)
  Definition reached (v : list S) (ops : list (sg_op S)) (t : segtree S) (a : list S) : Prop :=
    (exists outs, (t ← st_from e op v; run (st_step e op) t ops) = Ok (t, outs)) /\
    (exists outs, run (sg_spec_step e op) v ops = Ok (a, outs)).

  Lemma reached_inv v ops t a : reached v ops t a -> Inv e op t a.
  Proof.
    intros [[o1 H1] [o2 H2]].
    destruct (decide (Z.of_nat (length v) < 2 ^ 32)%Z) as [Hv|Hv].
    - destruct (st_from_inv e op v Hv) as (t0 & E & I). rewrite E in H1. cbn [mbind res_bind] in H1.
      pose proof (run_refines e op L ops t0 v I) as H. rewrite H2 in H.
      destruct H as (t' & H & I'). rewrite H1 in H. injection H as -> ->. exact I'.
    - rewrite (st_from_huge e op v) in H1 by lia. discriminate.
  Qed.

  Lemma max_right_reached v ops t a l f : reached v ops t a ->
    (l <= length a -> f e = true ->
       exists r, st_max_right e op t l f = Ok r /\ max_right_post e op a l f r /\
         (mono_from e op a l f -> forall j, l <= j <= length a ->
            f (mprod e op (slice a l j)) = true -> j <= r)) /\
    (length a < l \/ f e = false -> st_max_right e op t l f = Panic).
  Proof.
    intros R%reached_inv. rewrite <- (inv_n _ _ _ _ R). split.
    - intros Hl Hf. destruct (max_right_ok e op L t a R l f Hl Hf) as (r & Hr & Hp).
      exists r. split; [exact Hr|]. split; [exact Hp|]. rewrite (inv_n _ _ _ _ R).
      apply max_right_is_max. exact Hp.
    - apply max_right_panic.
  Qed.

  Lemma min_left_reached v ops t a r f : reached v ops t a ->
    (r <= length a -> f e = true ->
       exists l, st_min_left e op t r f = Ok l /\ min_left_post e op a r f l /\
         (mono_to e op a r f -> forall i, i <= r ->
            f (mprod e op (slice a i r)) = true -> l <= i)) /\
    (length a < r \/ f e = false -> st_min_left e op t r f = Panic).
  Proof.
    intros R%reached_inv. rewrite <- (inv_n _ _ _ _ R). split.
    - intros Hl Hf. destruct (min_left_ok e op L t a R r f Hl Hf) as (l & Hr & Hp).
      exists l. split; [exact Hr|]. split; [exact Hp|].
      apply min_left_is_min. exact Hp.
    - apply min_left_panic.
  Qed.
End Statements.

(** C01: any history of set/get/prod/all_prod answers (and panics) exactly as a plain array. *)
Theorem C01_segtree_refines_array : forall {S : Type} (e : S) (op : S -> S -> S),
  monoid_laws e op ->
  forall (v : list S) (ops : list (sg_op S)), (Z.of_nat (length v) < 2 ^ 32)%Z ->
    fmap snd (t ← st_from e op v; run (st_step e op) t ops)
    = fmap snd (run (sg_spec_step e op) v ops).
Proof. exact @segtree_refines_array. Qed.
Print Assumptions C01_segtree_refines_array.

(** C01, constructor [new(n)]: the array of n identities. *)
Theorem C01_segtree_new_refines_array : forall {S : Type} (e : S) (op : S -> S -> S),
  monoid_laws e op ->
  forall (n : nat) (ops : list (sg_op S)), (Z.of_nat n < 2 ^ 32)%Z ->
    fmap snd (t ← st_new e op n; run (st_step e op) t ops)
    = fmap snd (run (sg_spec_step e op) (replicate n e) ops).
Proof.
  intros S e op L n ops Hn. apply (segtree_refines_array e op L).
  rewrite replicate_length. exact Hn.
Qed.
Print Assumptions C01_segtree_new_refines_array.

(** C01, constructor [default()]: the empty array. *)
Theorem C01_segtree_default_refines_array : forall {S : Type} (e : S) (op : S -> S -> S),
  monoid_laws e op ->
  forall (ops : list (sg_op S)),
    fmap snd (t ← st_default e op; run (st_step e op) t ops)
    = fmap snd (run (sg_spec_step e op) [] ops).
Proof. intros S e op L ops. apply (segtree_refines_array e op L []). cbn. lia. Qed.
Print Assumptions C01_segtree_default_refines_array.

(** C01, why the bound on the length: longer vectors are rejected by a panic (`n as u32` truncates). *)
Theorem C01_segtree_from_too_long : forall {S : Type} (e : S) (op : S -> S -> S) (v : list S),
  (2 ^ 32 <= Z.of_nat (length v))%Z -> st_from e op v = Panic.
Proof. exact @st_from_huge. Qed.
Print Assumptions C01_segtree_from_too_long.

(** C02 *)
Theorem C02_segtree_max_right : forall {S : Type} (e : S) (op : S -> S -> S), monoid_laws e op ->
  forall v ops t a l f, reached e op v ops t a ->
    (l <= length a -> f e = true ->
       exists r, st_max_right e op t l f = Ok r /\ max_right_post e op a l f r /\
         (mono_from e op a l f -> forall j, l <= j <= length a ->
            f (mprod e op (slice a l j)) = true -> j <= r)) /\
    (length a < l \/ f e = false -> st_max_right e op t l f = Panic).
Proof. exact @max_right_reached. Qed.
Print Assumptions C02_segtree_max_right.

(** C03 *)
Theorem C03_segtree_min_left : forall {S : Type} (e : S) (op : S -> S -> S), monoid_laws e op ->
  forall v ops t a r f, reached e op v ops t a ->
    (r <= length a -> f e = true ->
       exists l, st_min_left e op t r f = Ok l /\ min_left_post e op a r f l /\
         (mono_to e op a r f -> forall i, i <= r ->
            f (mprod e op (slice a i r)) = true -> l <= i)) /\
    (length a < r \/ f e = false -> st_min_left e op t r f = Panic).
Proof. exact @min_left_reached. Qed.
Print Assumptions C03_segtree_min_left.

(** Hypotheses are met by a non-commutative monoid (list concatenation), a vector whose length is not
    a power of two, and a history with updates. *)
Example app_laws : monoid_laws (@nil nat) (@app nat).
Proof.
  split; [intros; apply app_assoc|reflexivity|intros; apply app_nil_r].
Qed.

Example C01_nonvacuous :
  fmap snd (t ← st_from [] (@app nat) [[1];[2];[3];[4];[5]];
            run (st_step [] (@app nat)) t
              [SgProd 1 5; SgSet 2 [7;8]; SgGet 2; SgProd 1 4; SgProd 3 3; SgAllProd])
  = Ok [SgVal [2;3;4;5]; SgUnit; SgVal [7;8]; SgVal [2;7;8;4]; SgVal []; SgVal [1;2;7;8;4;5]].
Proof. vm_compute. reflexivity. Qed.

Example C01_default_nonvacuous :
  fmap snd (t ← st_default [] (@app nat); run (st_step [] (@app nat)) t [SgProd 0 0; SgAllProd]) = Ok [SgVal []; SgVal []] /\
  fmap snd (t ← st_default [] (@app nat); run (st_step [] (@app nat)) t [SgAllProd; SgGet 0]) = Panic.
Proof. split; vm_compute; reflexivity. Qed.

Example C02_C03_nonvacuous : exists t,
  reached [] (@app nat) [[1];[2];[3];[4];[5]] [SgSet 2 [7;8]] t [[1];[2];[7;8];[4];[5]] /\
  st_max_right [] (@app nat) t 1 (fun s => length s <=? 3) = Ok 3 /\
  st_min_left [] (@app nat) t 4 (fun s => length s <=? 3) = Ok 2.
Proof.
  eexists. split; [split; eexists; vm_compute; reflexivity|]. split; vm_compute; reflexivity.
Qed.
