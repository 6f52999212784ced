(** Property theorems: the segment tree over an operation without any laws, for instance the sum of floating-point numbers (C73). *)
From Coq Require Import Floats.SpecFloat.
From Verif Require Import Prelude UtilModel ArraySpec SegtreeSpec SegtreeModel SegtreeProof FreeSpec SegtreeFree.

(** C73: no law about op and e is assumed. *)
Theorem C73_history (S : Type) (e : S) (op : S -> S -> S) (v : list S) (ops : list (sg_op S)) : (Z.of_nat (length v) < 2 ^ 32)%Z ->
  match (t ← st_from e op v; run (st_step e op) t ops) with
  | Ok (t, outs) => exists a, allowed_run (sg_any e op) v ops (Ok (a, outs)) /\
      (forall l f, if (l <=? length a) && f e then exists r, st_max_right e op t l f = Ok r /\ max_right_any e op a l f r else st_max_right e op t l f = Panic) /\
      (forall r f, if (r <=? length a) && f e then exists l, st_min_left e op t r f = Ok l /\ min_left_any e op a r f l else st_min_left e op t r f = Panic)
  | Panic => allowed_run (sg_any e op) v ops Panic
  | Diverge => False
  end.
Proof.
  intros Hv. destruct (from_fits e op v Hv) as (t0 & -> & F0). cbn [mbind res_bind].
  pose proof (history_any e op ops t0 v F0) as H. destruct (run (st_step e op) t0 ops) as [[t outs]| |]; [|exact H|exact H].
  destruct H as (a & Ha & I & M). exists a. split; [exact Ha|]. pose proof (inv_n _ _ _ _ I) as En. split.
  - intros l f. destruct (Nat.leb_spec l (length a)) as [Hl|Hl]; cbn [andb]; [|apply max_right_panic; lia].
    destruct (f e) eqn:Hf; [|apply max_right_panic; auto]. apply (max_right_br e op t a I M); [lia|exact Hf].
  - intros r f. destruct (Nat.leb_spec r (length a)) as [Hl|Hl]; cbn [andb]; [|apply min_left_panic; lia].
    destruct (f e) eqn:Hf; [|apply min_left_panic; auto]. apply (min_left_br e op t a I M); [lia|exact Hf].
Qed.
Print Assumptions C73_history.

(** With the laws of a monoid there is one product only, so that the answers are those of C01. *)
Theorem C73_lawful (S : Type) (e : S) (op : S -> S -> S) : monoid_laws e op -> forall l x, brackets e op l x -> x = mprod e op l.
Proof. apply brackets_lawful. Qed.
Print Assumptions C73_lawful.

(** src/misc/monoids.rs:36-48  Additive<f64>: binary64 addition, as in the Coq standard library (53 bits, largest exponent 1024; one NaN). *)
Definition f64_add (x y : spec_float) : spec_float := SFadd 53 1024 x y.
Definition f64_zero : spec_float := S754_zero false.
Definition f64_of (z : Z) : spec_float := binary_normalize 53 1024 z 0 false.

(** With f64 max_right can return an index past the end of the array: here 15 for 13 elements, searching the longest prefix with sum at most 2^54. *)
Theorem C73_past_end : exists (v : list spec_float) (f : spec_float -> bool) t r,
  st_from f64_zero f64_add v = Ok t /\ f f64_zero = true /\ st_max_right f64_zero f64_add t 0 f = Ok r /\ length v < r /\
  f = (fun s => SFleb s (f64_of (2 ^ 54))) /\ v = map f64_of [2 ^ 54; 0; 0; 0; 0; 0; 0; 0; 1; 1; 0; 0; 2]%Z.
Proof.
  exists (map f64_of [2 ^ 54; 0; 0; 0; 0; 0; 0; 0; 1; 1; 0; 0; 2]%Z), (fun s => SFleb s (f64_of (2 ^ 54))). eexists _, 15. split; [vm_compute; reflexivity|]. split; [|split; [|split; [|split; reflexivity]]]; vm_compute; [reflexivity|reflexivity|lia].
Qed.
Print Assumptions C73_past_end.

(** Two queries and the two searches over f64: the sum of a slice depends on the bracketing. *)
Example C73_nonvacuous :
  let v := map f64_of [2 ^ 53; 1; 1; 1]%Z in
  f64_add (f64_add (f64_add (f64_of (2 ^ 53)) (f64_of 1)) (f64_of 1)) (f64_of 1) = f64_of (2 ^ 53) /\
  match (t ← st_from f64_zero f64_add v; run (st_step f64_zero f64_add) t [SgProd 0 3; SgAllProd; SgSet 1 (f64_of 0); SgAllProd]) with
  | Ok (t, outs) => outs = [SgVal (f64_of (2 ^ 53)); SgVal (f64_of (2 ^ 53 + 2)); SgUnit; SgVal (f64_of (2 ^ 53 + 2))] /\
      st_max_right f64_zero f64_add t 0 (fun s => SFleb s (f64_of (2 ^ 53))) = Ok 3 /\ st_min_left f64_zero f64_add t 4 (fun s => SFleb s (f64_of 2)) = Ok 1
  | _ => False
  end.
Proof. vm_compute. auto. Qed.
