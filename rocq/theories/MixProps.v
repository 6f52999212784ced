(** The Fenwick tree and the sparse table over functions that need not satisfy any laws: main theorems. *)
From Coq Require Import SpecFloat.
From Verif Require Import Prelude UtilModel ArraySpec FenwickSpec FenwickModel SparseSpec SparseModel FreeSpec SegtreeFreeProps MixSpec FenwickMix SparseMix.

(** C97: with any Default value, additions and subtraction, every history of calls does what [fw_any] allows on the elements and amounts added at every place:
    pref(i) is put together from exactly those of the places below i, sum(l, r) is the difference of two such values.  Afterwards partition_point
    returns a place such that some value put together from the places below it satisfies the predicate, and some value with one more place does not. *)
Theorem C97_fenwick (T U : Type) (zero : T) (add sub : T -> T -> T) (addu : T -> U -> T) (a0 : list (list (T + U))) (t0 : res (fenwick T)) (ops : list (fw_op T U)) :
  (exists v, t0 = fw_from zero add v /\ a0 = map (fun x => [inl x]) v) \/ (exists n, t0 = Ok (fw_new zero n) /\ a0 = replicate n []) ->
  match (t ← t0; run (fw_step zero add sub addu) t ops) with
  | Ok (t, outs) => exists a, allowed_run (fw_any zero add sub addu) a0 ops (Ok (a, outs)) /\ length a = length a0 /\
      forall pred, (length a = 0 -> fw_partition_point zero add t pred = Panic) /\
        (0 < length a -> (Z.of_nat (length a) < 2 ^ 64)%Z ->
          exists r, fw_partition_point zero add t pred = Ok r /\ r <= length a /\
            (0 < r -> exists x, mixes zero add addu (concat (slice a 0 r)) x /\ pred x = true) /\
            (r < length a -> exists x, mixes zero add addu (concat (slice a 0 (r + 1))) x /\ pred x = false))
  | Panic => allowed_run (fw_any zero add sub addu) a0 ops Panic
  | Diverge => False
  end.
Proof.
  intros H0. assert (exists t, t0 = Ok t /\ MInv zero add addu t a0) as (t & -> & I).
  { destruct H0 as [(v & -> & ->)|(n & -> & ->)]; [apply from_mix|]. eexists. split; [reflexivity|apply new_mix]. }
  cbn [mbind res_bind]. pose proof (run_mix zero add sub addu ops t a0 I) as H.
  destruct (run (fw_step zero add sub addu) t ops) as [[t' outs]| |] eqn:E; [|exact H|exact H]. destruct H as (a & H & I'). exists a. split; [exact H|].
  split; [exact (any_run_length zero add sub addu ops a0 _ H a outs eq_refl)|]. intros pred. split.
  - apply (partition_point_mix_empty zero add addu t' a I').
  - apply (partition_point_mix zero add addu t' a I').
Qed.
Print Assumptions C97_fenwick.

(** C97: under the laws of C06 a mix is the sum. *)
Theorem C97_fenwick_lawful (T U : Type) (zero : T) (add : T -> T -> T) (addu : T -> U -> T) :
  monoid_laws zero add -> (forall x y, add x y = add y x) -> (forall x u, addu x u = add x (addu zero u)) ->
  forall l x, mixes zero add addu l x -> x = mprod zero add (map (fun q => match q with inl y => y | inr u => addu zero u end) l).
Proof. intros L C HU l x. apply (mixes_lawful zero add addu l x L C HU). Qed.
Print Assumptions C97_fenwick_lawful.

(** C97: with any operation, a query of the sparse table is the product of two values, each put together from the elements of a block in their order;
    the two blocks have the same length, the largest power of two in the range, and lie at its ends. *)
Theorem C97_sparse (T : Type) (op : T -> T -> T) (v : list T) (init : T) : 0 < length v -> (Z.of_nat (length v) < 2 ^ 64)%Z ->
  exists data, sp_from v init op = Ok data /\
    (forall l r, r <= l -> sp_get op data l r = Panic) /\
    (forall l r c, l < r <= length v -> 2 ^ c <= r - l < 2 * 2 ^ c ->
      exists x y, sp_get op data l r = Ok (op x y) /\ folds op (slice v l (l + 2 ^ c)) x /\ folds op (slice v (r - 2 ^ c) r) y) /\
    (forall l r c, l < r -> (Z.of_nat r < 2 ^ 64)%Z -> 2 ^ c <= r - l < 2 * 2 ^ c ->
      (2 ^ c <= length v -> l < length v -> r < length v + 2 ^ c ->
         exists x y, sp_get op data l r = Ok (op x y) /\ block_any op v init l (2 ^ c) x /\ block_any op v init (r - 2 ^ c) (2 ^ c) y) /\
      (length v < 2 ^ c \/ length v <= l \/ length v + 2 ^ c <= r -> sp_get op data l r = Panic)).
Proof.
  intros H0 H64. destruct (from_tab op init v H0 H64) as (data & -> & Tb). exists data. split; [reflexivity|].
  split; [intros l r H; unfold sp_get; destruct (Nat.ltb_spec l r); [lia|reflexivity]|]. split.
  - intros l r c Hlr Hc. destruct (get_mix op init v data l r c Tb ltac:(lia) ltac:(lia) Hc) as [H _].
    destruct H as (x & y & E & Hx & Hy); [lia..|]. exists x, y. split; [exact E|]. unfold block_any in Hx, Hy. replace (r - 2 ^ c + 2 ^ c) with r in Hy by lia.
    split; [destruct Hx as [[_ H]|[H _]]; [exact H|lia]|destruct Hy as [[_ H]|[H _]]; [exact H|lia]].
  - intros l r c Hlr Hr Hc. exact (get_mix op init v data l r c Tb Hr Hlr Hc).
Qed.
Print Assumptions C97_sparse.

(** C97: if the operation is associative, a block has one value. *)
Theorem C97_sparse_lawful (T : Type) (op : T -> T -> T) : (forall x y z, op x (op y z) = op (op x y) z) -> forall l x, folds op l x -> fold1 op l = Some x.
Proof. apply folds_lawful. Qed.
Print Assumptions C97_sparse_lawful.

(** Sums of f64: the node above all places holds 2^53, and what is added to it in steps of 1 is lost, so that sum(2, 4) is 0 instead of 2; adding 2 is not lost. *)
Example C97_fenwick_nonvacuous :
  let v := map f64_of [2 ^ 53; 0; 1; 1]%Z in
  (t ← fw_from f64_zero f64_add v; '(t, outs) ← run (fw_step f64_zero f64_add (SFsub 53 1024) f64_add) t [FwAdd 0 (f64_of 1); FwAdd 0 (f64_of 1); FwPref 1; FwPref 4; FwSum 2 4; FwAdd 3 (f64_of 2); FwPref 4];
   r ← fw_partition_point f64_zero f64_add t (fun s => SFleb s (f64_of (2 ^ 53))); Ok (outs, r)) =
  Ok ([FwUnit; FwUnit; FwVal (f64_of (2 ^ 53)); FwVal (f64_of (2 ^ 53)); FwVal (f64_of 0); FwUnit; FwVal (f64_of (2 ^ 53 + 2))], 3).
Proof. vm_compute. reflexivity. Qed.

(** A sparse table of f64 sums (not idempotent): get(0, 3) counts the middle element twice. *)
Example C97_sparse_nonvacuous :
  (data ← sp_from (map f64_of [2 ^ 53; 1; 1; 1]%Z) f64_zero f64_add; sp_get f64_add data 0 3) = Ok (f64_of (2 ^ 53 + 2)) /\
  (data ← sp_from (map f64_of [1; 2; 4; 8]%Z) f64_zero f64_add; sp_get f64_add data 0 3) = Ok (f64_of 9).
Proof. vm_compute. auto. Qed.
