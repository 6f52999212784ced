(** Property theorems for src/data_structure/fenwick_tree.rs (C06, C07). *)
From Verif Require Import Prelude UtilModel ArraySpec FenwickSpec FenwickModel FenwickProof.

(** Laws used: [add] is a commutative monoid; `x += u` for a foreign type U adds some fixed amount. *)
Record fw_laws {T U} (zero : T) (add : T -> T -> T) (addu : T -> U -> T) : Prop := {
  fl_monoid : monoid_laws zero add;
  fl_comm : forall x y, add x y = add y x;
  fl_addu : forall x u, addu x u = add x (addu zero u) }.

Section Statements.
  Context {T U : Type} (zero : T) (add sub : T -> T -> T) (addu : T -> U -> T) (L : fw_laws zero add addu).
  Local Notation step := (fw_step zero add sub addu).
  Local Notation spec := (fw_spec_step zero add sub addu).

  Lemma fenwick_refines (a : list T) (ops : list (fw_op T U)) :
    fmap snd (t ← fw_from zero add a; run step t ops) = fmap snd (run spec a ops).
  Proof.
    destruct L as [LM LC LU]. destruct (fw_from_inv zero add LM a) as (t & -> & I). cbn [mbind res_bind].
    pose proof (fw_run_refines zero add sub addu LM LC LU ops t a I) as H.
    destruct (run spec a ops) as [[a' outs]| |]; [|rewrite H; reflexivity|contradiction].
    destruct H as (t' & -> & _). reflexivity.
  Qed.

  Lemma fenwick_new_refines (n : nat) (ops : list (fw_op T U)) :
    fmap snd (run step (fw_new zero n) ops) = fmap snd (run spec (replicate n zero) ops).
  Proof.
    destruct L as [LM LC LU].
    pose proof (fw_run_refines zero add sub addu LM LC LU ops _ _ (fw_new_inv zero add LM n)) as H.
    destruct (run spec (replicate n zero) ops) as [[a' outs]| |]; [|rewrite H; reflexivity|contradiction].
    destruct H as (t' & -> & _). reflexivity.
  Qed.

  (** Trees reachable from [from a0] by the calls [ops]; [a] is the plain array then. *)
  Definition fw_reached (a0 : list T) (ops : list (fw_op T U)) (t : fenwick T) (a : list T) : Prop :=
    (exists outs, (t ← fw_from zero add a0; run step t ops) = Ok (t, outs)) /\
    (exists outs, run spec a0 ops = Ok (a, outs)).

  Lemma fw_reached_inv a0 ops t a : fw_reached a0 ops t a -> FInv zero add t a.
  Proof.
    destruct L as [LM LC LU]. intros [[o1 H1] [o2 H2]].
    destruct (fw_from_inv zero add LM a0) as (t0 & E & I). rewrite E in H1. cbn [mbind res_bind] in H1.
    pose proof (fw_run_refines zero add sub addu LM LC LU ops t0 a0 I) as H. rewrite H2 in H.
    destruct H as (t' & H & I'). rewrite H1 in H. injection H as -> ->. exact I'.
  Qed.

  Lemma fw_sum_group a0 ops t a l r : (forall x y, sub (add x y) x = y) ->
    fw_reached a0 ops t a -> l <= r <= length a ->
    fw_sum zero add sub t l r = Ok (mprod zero add (slice a l r)).
  Proof.
    intros G R%fw_reached_inv Hlr. destruct L as [LM LC LU]. unfold fw_sum.
    rewrite !(pref_ok zero add LM t a R) by (assumption || lia). cbn [mbind res_bind].
    rewrite <- (slice_app a 0 l r), (mprod_app _ _ LM), G by lia. reflexivity.
  Qed.

  Lemma fw_partition a0 ops t a pred k : fw_reached a0 ops t a ->
    0 < length a -> (Z.of_nat (length a) < 2 ^ 64)%Z -> k <= length a ->
    (forall i, i < length a -> pred (prefix_sum zero add a i) = (i <? k)) ->
    fw_partition_point zero add t pred = Ok k.
  Proof.
    intros R%fw_reached_inv. destruct L as [LM LC LU]. apply (partition_point_partitioned zero add LM t a R).
  Qed.

  Lemma fw_partition_any a0 ops t a pred : fw_reached a0 ops t a ->
    0 < length a -> (Z.of_nat (length a) < 2 ^ 64)%Z ->
    exists r, fw_partition_point zero add t pred = Ok r /\ r <= length a /\
      (0 < r -> pred (prefix_sum zero add a (r - 1)) = true) /\
      (r < length a -> pred (prefix_sum zero add a r) = false).
  Proof.
    intros R%fw_reached_inv Hn H64. destruct L as [LM LC LU].
    destruct (partition_point_ok zero add LM t a R pred Hn H64) as (r & Hr & Hle & H1 & H2).
    exists r. split; [exact Hr|]. split; [exact Hle|]. unfold prefix_sum. split; [|exact H2].
    intros H. replace (r - 1 + 1) with r by lia. apply H1. exact H.
  Qed.

  Lemma fw_partition_empty ops t a pred : fw_reached [] ops t a ->
    fw_partition_point zero add t pred = Panic.
  Proof.
    intros R. pose proof (fw_reached_inv _ _ _ _ R) as I. apply (partition_point_empty zero add t a I).
    destruct R as [_ [outs R]].
    assert (forall ops b outs, run spec b ops = Ok (a, outs) -> length a = length b) as Hl.
    { clear. induction ops as [|o ops IH]; intros b outs H; cbn [run] in H.
      - injection H as -> _. reflexivity.
      - destruct (spec b o) as [[b1 o1]| |] eqn:E; cbn [mbind res_bind] in H; try discriminate.
        destruct (run spec b1 ops) as [[b2 o2]| |] eqn:E2; cbn [mbind res_bind] in H; try discriminate.
        injection H as -> _. rewrite (IH _ _ E2).
        destruct o as [p u|i|l r]; cbn [fw_spec_step] in E.
        + injection E as <- _. destruct (b !! p); rewrite ?insert_length; reflexivity.
        + destruct (_ <=? _); inversion E; reflexivity.
        + destruct (_ && _); inversion E; reflexivity. }
    rewrite (Hl _ _ _ R). reflexivity.
  Qed.
End Statements.

(** C06: every history of add/pref/sum on [from a] answers and panics as the plain array does. *)
Theorem C06_fenwick_refines_array : forall {T U : Type} (zero : T) (add sub : T -> T -> T) (addu : T -> U -> T),
  fw_laws zero add addu -> forall (a : list T) (ops : list (fw_op T U)),
    fmap snd (t ← fw_from zero add a; run (fw_step zero add sub addu) t ops)
    = fmap snd (run (fw_spec_step zero add sub addu) a ops).
Proof. exact @fenwick_refines. Qed.
Print Assumptions C06_fenwick_refines_array.

Theorem C06_fenwick_new_refines_array : forall {T U : Type} (zero : T) (add sub : T -> T -> T) (addu : T -> U -> T),
  fw_laws zero add addu -> forall (n : nat) (ops : list (fw_op T U)),
    fmap snd (run (fw_step zero add sub addu) (fw_new zero n) ops)
    = fmap snd (run (fw_spec_step zero add sub addu) (replicate n zero) ops).
Proof. exact @fenwick_new_refines. Qed.
Print Assumptions C06_fenwick_new_refines_array.

(** C06: in a group sum(l,r) is data[l] + ... + data[r-1]. *)
Theorem C06_fenwick_sum : forall {T U : Type} (zero : T) (add sub : T -> T -> T) (addu : T -> U -> T),
  fw_laws zero add addu -> forall a0 (ops : list (fw_op T U)) t a l r,
    (forall x y, sub (add x y) x = y) ->
    fw_reached zero add sub addu a0 ops t a -> l <= r <= length a ->
    fw_sum zero add sub t l r = Ok (mprod zero add (slice a l r)).
Proof. exact @fw_sum_group. Qed.
Print Assumptions C06_fenwick_sum.

(** C07: for a predicate partitioning the prefix sums at k, partition_point returns k. *)
Theorem C07_partition_point : forall {T U : Type} (zero : T) (add sub : T -> T -> T) (addu : T -> U -> T),
  fw_laws zero add addu -> forall a0 (ops : list (fw_op T U)) t a pred k,
    fw_reached zero add sub addu a0 ops t a ->
    0 < length a -> (Z.of_nat (length a) < 2 ^ 64)%Z -> k <= length a ->
    (forall i, i < length a -> pred (prefix_sum zero add a i) = (i <? k)) ->
    fw_partition_point zero add t pred = Ok k.
Proof. exact @fw_partition. Qed.
Print Assumptions C07_partition_point.

(** C07, arbitrary predicate: the result is a boundary between true and false. *)
Theorem C07_partition_point_boundary : forall {T U : Type} (zero : T) (add sub : T -> T -> T) (addu : T -> U -> T),
  fw_laws zero add addu -> forall a0 (ops : list (fw_op T U)) t a pred,
    fw_reached zero add sub addu a0 ops t a ->
    0 < length a -> (Z.of_nat (length a) < 2 ^ 64)%Z ->
    exists r, fw_partition_point zero add t pred = Ok r /\ r <= length a /\
      (0 < r -> pred (prefix_sum zero add a (r - 1)) = true) /\
      (r < length a -> pred (prefix_sum zero add a r) = false).
Proof. exact @fw_partition_any. Qed.
Print Assumptions C07_partition_point_boundary.

(** C07: search(target) is the number of prefix sums below target, when they are sorted around it. *)
Theorem C07_search : forall {T U : Type} (zero : T) (add sub : T -> T -> T) (addu : T -> U -> T),
  fw_laws zero add addu -> forall a0 (ops : list (fw_op T U)) t a (lt : T -> T -> bool) target k,
    fw_reached zero add sub addu a0 ops t a ->
    0 < length a -> (Z.of_nat (length a) < 2 ^ 64)%Z -> k <= length a ->
    (forall i, i < length a -> lt (prefix_sum zero add a i) target = (i <? k)) ->
    fw_search zero add lt t target = Ok k.
Proof. intros T U zero add sub addu L a0 ops t a lt target k. exact (fw_partition zero add sub addu L a0 ops t a _ k). Qed.
Print Assumptions C07_search.

(** C07: the empty tree panics (u32 underflow in `BITS - 1 - leading_zeros`). *)
Theorem C07_partition_point_empty_panics : forall {T U : Type} (zero : T) (add sub : T -> T -> T) (addu : T -> U -> T),
  fw_laws zero add addu -> forall (ops : list (fw_op T U)) t a pred,
    fw_reached zero add sub addu [] ops t a -> fw_partition_point zero add t pred = Panic.
Proof. exact @fw_partition_empty. Qed.
Print Assumptions C07_partition_point_empty_panics.

Example Z_fw_laws : fw_laws 0%Z Z.add Z.add.
Proof. split; [split|..]; intros; lia. Qed.

Example C06_C07_nonvacuous : exists t,
  fw_reached 0%Z Z.add Z.sub Z.add [1; 2; 3; 4; 5; 6]%Z [FwAdd 2 10%Z; FwAdd 9 7%Z; FwSum 1 3] t [1; 2; 13; 4; 5; 6]%Z /\
  fw_pref 0%Z Z.add t 6 = Ok 31%Z /\ fw_sum 0%Z Z.add Z.sub t 1 5 = Ok 24%Z /\
  fw_partition_point 0%Z Z.add t (fun x => x <? 17)%Z = Ok 3 /\
  (forall i, i < 6 -> (prefix_sum 0%Z Z.add [1; 2; 13; 4; 5; 6]%Z i <? 17)%Z = (i <? 3)) /\
  fw_pref 0%Z Z.add t 7 = Panic.
Proof.
  eexists. split; [split; eexists; vm_compute; reflexivity|].
  repeat split; try (vm_compute; reflexivity).
  intros i Hi. do 6 (destruct i as [|i]; [vm_compute; reflexivity|]). lia.
Qed.
