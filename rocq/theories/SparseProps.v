(** Property theorems for src/data_structure/sparse_table.rs (C08, C09). *)
From Verif Require Import Prelude UtilModel ArraySpec SparseSpec SparseModel SparseProof.

Section Statements.
  Context {T : Type} (op : T -> T -> T).
  Context (A : forall x y z, op x (op y z) = op (op x y) z).

  Lemma sparse_correct v init : (forall x, op x x = x) ->
    0 < length v -> (Z.of_nat (length v) < 2 ^ 64)%Z ->
    exists data, sp_from v init op = Ok data /\
      (forall l r, l < r <= length v -> exists x, sp_get op data l r = Ok x /\ fold1 op (slice v l r) = Some x) /\
      (forall l r, r <= l -> sp_get op data l r = Panic).
  Proof.
    intros Idem Hn H64. destruct (sp_from_inv op A v init Hn H64) as (data & Hd & I).
    exists data. split; [exact Hd|]. split.
    - intros l r Hlr. apply (sp_get_ok op A Idem v init); assumption.
    - intros l r. apply sp_get_empty.
  Qed.

  Lemma sparse_any v init data l r c :
    (Z.of_nat (length v) < 2 ^ 64)%Z -> (Z.of_nat r < 2 ^ 64)%Z ->
    sp_from v init op = Ok data -> l < r -> 2 ^ c <= r - l < 2 * 2 ^ c ->
    (2 ^ c <= length v -> l < length v -> r < length v + 2 ^ c ->
       exists x y, sp_get op data l r = Ok (op x y) /\ block op v init l (2 ^ c) x /\ block op v init (r - 2 ^ c) (2 ^ c) y) /\
    (length v < 2 ^ c \/ length v <= l \/ length v + 2 ^ c <= r -> sp_get op data l r = Panic).
  Proof.
    intros Hv Hr Hd. destruct (decide (0 < length v)) as [Hn|Hn].
    - destruct (sp_from_inv op A v init Hn Hv) as (data' & Hd' & I).
      assert (data' = data) as -> by congruence. apply (sp_get_any op v init); assumption.
    - destruct v; [discriminate|cbn in Hn; lia].
  Qed.
End Statements.

(** C08 *)
Theorem C08_sparse_table : forall {T : Type} (op : T -> T -> T),
  (forall x y z, op x (op y z) = op (op x y) z) ->
  forall (v : list T) (init : T), (forall x, op x x = x) ->
    0 < length v -> (Z.of_nat (length v) < 2 ^ 64)%Z ->
    exists data, sp_from v init op = Ok data /\
      (forall l r, l < r <= length v -> exists x, sp_get op data l r = Ok x /\ fold1 op (slice v l r) = Some x) /\
      (forall l r, r <= l -> sp_get op data l r = Panic).
Proof. exact @sparse_correct. Qed.
Print Assumptions C08_sparse_table.

(** C08: the empty slice cannot be built (lg(0) underflows). *)
Theorem C08_sparse_table_empty_panics : forall {T : Type} (op : T -> T -> T) init, sp_from [] init op = Panic.
Proof. reflexivity. Qed.
Print Assumptions C08_sparse_table_empty_panics.

(** C09 is false: with r > len, get may return a value built from `init`. *)
Theorem C09_sparse_out_of_range_rejected_refuted :
  exists (v : list Z) (data : list (list Z)) (init x : Z) (l r : nat),
    sp_from v init Z.min = Ok data /\ l < r /\ length v < r /\ sp_get Z.min data l r = Ok x.
Proof.
  exists [5; 1; 4; 2; 3]%Z. eexists. exists (-7)%Z, (-7)%Z, 3, 6.
  split; [vm_compute; reflexivity|]. split; [lia|]. split; [cbn; lia|]. vm_compute. reflexivity.
Qed.
Print Assumptions C09_sparse_out_of_range_rejected_refuted.

(** C09, what does hold, for every query l < r with 2^c the largest power of two up to r - l: the exact panic condition,
    and otherwise the product of the two blocks of length 2^c at both ends, where a block that does not fit counts as
    `init`.  Hence a query that starts beyond the end, or reaches 2^c beyond it, panics. *)
Theorem C09_sparse_out_of_range_partial : forall {T : Type} (op : T -> T -> T),
  (forall x y z, op x (op y z) = op (op x y) z) ->
  forall (v : list T) (init : T) data l r c,
    (Z.of_nat (length v) < 2 ^ 64)%Z -> (Z.of_nat r < 2 ^ 64)%Z ->
    sp_from v init op = Ok data -> l < r -> 2 ^ c <= r - l < 2 * 2 ^ c ->
    (2 ^ c <= length v -> l < length v -> r < length v + 2 ^ c ->
       exists x y, sp_get op data l r = Ok (op x y) /\ block op v init l (2 ^ c) x /\ block op v init (r - 2 ^ c) (2 ^ c) y) /\
    (length v < 2 ^ c \/ length v <= l \/ length v + 2 ^ c <= r -> sp_get op data l r = Panic).
Proof. exact @sparse_any. Qed.
Print Assumptions C09_sparse_out_of_range_partial.

(** Non-vacuity. *)
Example C08_nonvacuous : exists data,
  sp_from [5; 1; 4; 2; 3]%Z 0%Z Z.min = Ok data /\ sp_get Z.min data 1 4 = Ok 1%Z /\ sp_get Z.min data 2 5 = Ok 2%Z.
Proof. eexists. split; [vm_compute; reflexivity|]. split; vm_compute; reflexivity. Qed.

Example C08_nonvacuous_laws :
  (forall x y z : Z, Z.min x (Z.min y z) = Z.min (Z.min x y) z) /\ (forall x : Z, Z.min x x = x).
Proof. split; intros; lia. Qed.

(** With min over five elements and init -7: [1, 7) is answered from the blocks at 1 (fits) and 3 (does not), [4, 9) and
    [2, 9) panic. *)
Example C09_nonvacuous : exists data, sp_from [5; 1; 4; 2; 3]%Z (-7)%Z Z.min = Ok data /\
  sp_get Z.min data 1 7 = Ok (-7)%Z /\ block Z.min [5; 1; 4; 2; 3]%Z (-7)%Z 1 4 1%Z /\ block Z.min [5; 1; 4; 2; 3]%Z (-7)%Z 3 4 (-7)%Z /\
  sp_get Z.min data 4 9 = Panic /\ sp_get Z.min data 2 9 = Panic.
Proof.
  eexists. split; [vm_compute; reflexivity|]. split; [vm_compute; reflexivity|].
  split; [left; split; [cbn; lia|vm_compute; reflexivity]|]. split; [right; split; [cbn; lia|reflexivity]|].
  split; vm_compute; reflexivity.
Qed.
