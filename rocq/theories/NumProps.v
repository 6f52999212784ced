(** Property theorems for src/math/number_theory.rs (C31-C34). *)
From Verif Require Import Prelude IntModel NumModel NumSpec NumProof.
Open Scope Z_scope.

Lemma prim_bits T : In T prim_types -> 2 <= it_bits T.
Proof. cbn. intros H. repeat destruct H as [<-|H]; cbn; try lia. Qed.

(** C31: |gcd(a,b)| is the greatest common divisor, for every primitive type; the only panic is the overflow
    of MIN % -1, which Euclid meets exactly on the arguments (MIN,-1) and (-1,MIN). *)
Theorem C31_gcd : forall T, In T prim_types -> forall a b, in_ty T a -> in_ty T b ->
  ~ (it_signed T = true /\ ((a = it_min T /\ b = -1) \/ (a = -1 /\ b = it_min T))) ->
  exists g, gcd T a b = Ok g /\ Z.abs g = Z.gcd a b /\ (0 <= a -> 0 <= b -> 0 <= g).
Proof.
  intros T HT a b Ha Hb Hn. destruct (gcd_ok T (prim_bits T HT) a b Ha Hb) as (g & E & H1 & H2 & _).
  - intros (? & ? & ?). apply Hn. auto.
  - intros (? & ? & ?). apply Hn. auto.
  - eauto.
Qed.
Print Assumptions C31_gcd.

Theorem C31_gcd_overflow : forall T, In T prim_types -> it_signed T = true ->
  gcd T (it_min T) (-1) = Panic /\ gcd T (-1) (it_min T) = Panic.
Proof. intros T HT Hs. split; apply gcd_bad; try (apply prim_bits; exact HT); unfold bad; auto. Qed.
Print Assumptions C31_gcd_overflow.

Example C31_nonvacuous : gcd i32 84 (-36) = Ok 12 /\ gcd i32 4 (-6) = Ok (-2) /\ gcd u64 (2 ^ 64 - 1) (2 ^ 32 + 1) = Ok (2 ^ 32 + 1).
Proof. vm_compute. auto. Qed.

(** C32 as stated ("whenever the result is representable") is false: the product overflows first. *)
Theorem C32_lcm_refuted : exists T a b, In T prim_types /\ 0 < a /\ 0 < b /\ in_ty T a /\ in_ty T b /\
  in_ty T (Z.lcm a b) /\ lcm T a b = Panic.
Proof.
  exists i32, 65536, 65536. split; [cbn; tauto|]. unfold in_ty. vm_compute. intuition congruence.
Qed.
Print Assumptions C32_lcm_refuted.

(** C32, what holds: for non-negative a, b, not both 0, the least common multiple when a*b fits, a panic when it does not;
    lcm(0,0) divides by zero. *)
Theorem C32_lcm_partial : forall T, In T prim_types -> forall a b, in_ty T a -> in_ty T b -> 0 <= a -> 0 <= b ->
  (0 < a \/ 0 < b -> in_ty T (a * b) -> lcm T a b = Ok (Z.lcm a b)) /\
  (~ in_ty T (a * b) -> lcm T a b = Panic) /\
  lcm T 0 0 = Panic.
Proof.
  intros T HT a b Ha Hb Pa Pb. split; [|split].
  - intros. apply lcm_ok; try assumption. apply prim_bits. exact HT.
  - apply lcm_overflow.
  - apply lcm_zero, prim_bits, HT.
Qed.
Print Assumptions C32_lcm_partial.

(** C32 for arguments of any sign, exactly: up to the sign the least common multiple, and a panic exactly when the
    product overflows or both arguments are 0. *)
Theorem C32_lcm_any_partial : forall T, In T prim_types -> forall a b, in_ty T a -> in_ty T b ->
  (in_ty T (a * b) /\ (a <> 0 \/ b <> 0) -> exists r, lcm T a b = Ok r /\ Z.abs r = Z.lcm a b) /\
  (~ (in_ty T (a * b) /\ (a <> 0 \/ b <> 0)) -> lcm T a b = Panic).
Proof.
  intros T HT a b Ha Hb. assert (2 <= it_bits T) as HB by (apply prim_bits; exact HT). split.
  - intros [Hab Hne]. apply lcm_any; assumption.
  - intros H. destruct (decide (it_min T <= a * b <= it_max T)) as [Hab|Hab]; [|apply lcm_overflow; exact Hab].
    assert (a = 0 /\ b = 0) as [-> ->] by (destruct (decide (a = 0)); destruct (decide (b = 0)); unfold in_ty in H; tauto). apply lcm_zero. exact HB.
Qed.
Print Assumptions C32_lcm_any_partial.
Example C32_any_nonvacuous : lcm i8 (-12) 10 = Ok 60 /\ lcm i8 1 (-128) = Ok (-128) /\ lcm i8 (-128) (-1) = Panic.
Proof. repeat split; vm_compute; reflexivity. Qed.

Example C32_nonvacuous : lcm u8 12 18 = Ok 36 /\ lcm u8 16 16 = Panic.
Proof. vm_compute. auto. Qed.

(** C33: Bezout coefficients for every signed type, no overflow except MIN / -1; coefficients are small. *)
Theorem C33_ex_gcd : forall T, In T prim_types -> it_signed T = true -> forall a b, in_ty T a -> in_ty T b ->
  ~ ((a = it_min T /\ b = -1) \/ (a = -1 /\ b = it_min T)) ->
  exists x y g, ex_gcd T a b = Ok (x, y, g) /\ a * x + b * y = g /\ Z.abs g = Z.gcd a b /\
    (0 <= a -> 0 <= b -> 0 <= g) /\ Z.abs x <= Z.max 1 (Z.abs b) /\ Z.abs y <= Z.max 1 (Z.abs a).
Proof.
  intros T HT Hs a b Ha Hb Hn.
  destruct (ex_gcd_ok T (prim_bits T HT) a b Hs Ha Hb) as (x & y & g & E & H1 & H2 & H3 & H4).
  - intros (? & ? & ?). apply Hn. auto.
  - intros (? & ? & ?). apply Hn. auto.
  - exists x, y, g. repeat (split; [assumption|]).
    destruct H4 as [(-> & -> & ->)|[(? & ? & -> & ->)|(? & Hr & X & Y)]]; [lia|lia|].
    assert (1 <= Z.abs g).
    { assert (Z.gcd a b <> 0); [|pose proof (Z.gcd_nonneg a b); lia]. intros [_ ?]%Z.gcd_eq_0. contradiction. }
    assert (2 * Z.abs x <= Z.abs b) by (apply (ex3 _ _ (Z.abs g)); [assumption|lia|exact X]).
    assert (2 * Z.abs y <= Z.abs a) by (apply (ex3 _ _ (Z.abs g)); [assumption|lia|exact Y]).
    lia.
Qed.
Print Assumptions C33_ex_gcd.

Theorem C33_ex_gcd_overflow : forall T, In T prim_types -> it_signed T = true ->
  ex_gcd T (it_min T) (-1) = Panic /\ ex_gcd T (-1) (it_min T) = Panic.
Proof. intros T HT Hs. split; apply ex_gcd_bad; try (apply prim_bits; exact HT); unfold bad; auto. Qed.
Print Assumptions C33_ex_gcd_overflow.

Example C33_nonvacuous : ex_gcd i64 240 46 = Ok (-9, 47, 2) /\ ex_gcd i8 (-128) 127 = Ok (1, 1, -1).
Proof. vm_compute. auto. Qed.

(** C34 as stated is false for negative coefficients: -3 x = 3 (mod 6) gives (-1, -2). *)
Theorem C34_ex_crt_refuted : exists a b m o, length b = length a /\ length m = length a /\
  Forall (in_ty i64) a /\ Forall (in_ty i64) b /\ Forall (fun x => 0 < x /\ in_ty i64 x) m /\
  ex_crt a b m = Ok o /\ ~ crt_answer a b m o.
Proof.
  exists [-3], [3], [6], (Some (-1, -2)). split; [reflexivity|]. split; [reflexivity|].
  split; [repeat constructor; vm_compute; congruence|]. split; [repeat constructor; vm_compute; congruence|].
  split; [repeat constructor; vm_compute; congruence|]. split; [vm_compute; reflexivity|]. cbn. lia.
Qed.
Print Assumptions C34_ex_crt_refuted.

(** C34, what holds: with non-negative coefficients and positive moduli, whatever ex_crt returns (that is, unless
    some i64 operation overflows) describes exactly the solutions ... *)
Theorem C34_ex_crt_partial : forall a b m, length b = length a -> length m = length a ->
  (forall i x, a !! i = Some x -> 0 <= x /\ in_ty i64 x) ->
  (forall i x, b !! i = Some x -> in_ty i64 x) ->
  (forall i x, m !! i = Some x -> 0 < x /\ in_ty i64 x) ->
  forall o, ex_crt a b m = Ok o -> crt_answer a b m o.
Proof. intros a b m Lb Lm Ha Hb Hm o. apply (ex_crt_sound a b m Ha Hm Lb Lm). Qed.
Print Assumptions C34_ex_crt_partial.

(** ... and nothing overflows when there is room for each coefficient times the least common multiple of the moduli before it, and
    for twice the least common multiple of all moduli. *)
Theorem C34_ex_crt_total_partial : forall a b m, length b = length a -> length m = length a ->
  (forall i x, a !! i = Some x -> 0 <= x /\ in_ty i64 x) ->
  (forall i x, m !! i = Some x -> 0 < x /\ in_ty i64 x) ->
  (forall i ai bi, a !! i = Some ai -> b !! i = Some bi -> ai * foldr Z.lcm 1 (take i m) + Z.abs bi < 2 ^ 63) ->
  2 * foldr Z.lcm 1 m <= 2 ^ 63 ->
  exists o, ex_crt a b m = Ok o /\ crt_answer a b m o.
Proof.
  intros a b m Lb Lm Ha Hm R1 R2.
  destruct (ex_crt_total a b m Ha Hm Lb Lm R1 R2) as [o E]. exists o. split; [exact E|].
  apply (ex_crt_sound a b m Ha Hm Lb Lm o E).
Qed.
Print Assumptions C34_ex_crt_total_partial.

(** For coefficients and moduli of any sign: whatever ex_crt returns still describes exactly the solutions; only the normal
    form 0 <= x < l is lost. *)
Theorem C34_ex_crt_any_partial : forall a b m, length b = length a -> length m = length a ->
  Forall (in_ty i64) a -> Forall (in_ty i64) b -> Forall (in_ty i64) m ->
  forall o, ex_crt a b m = Ok o -> crt_solutions a b m o.
Proof.
  intros a b m Lb Lm Ha _ Hm o. rewrite Forall_lookup in Ha, Hm. apply (ex_crt_any a b m Ha Hm o Lb Lm).
Qed.
Print Assumptions C34_ex_crt_any_partial.

(** Vectors of different lengths: entries of b and m past the length of a are ignored; if b or m is shorter than a, ex_crt finds the
    congruences before unsolvable or panics. *)
Theorem C34_lengths_partial : forall a b m, Forall (in_ty i64) m ->
  ((length a <= length b)%nat -> (length a <= length m)%nat -> ex_crt a b m = ex_crt a (take (length a) b) (take (length a) m)) /\
  ((length b < length a)%nat \/ (length m < length a)%nat -> ex_crt a b m = Ok None \/ ex_crt a b m = Panic).
Proof.
  intros a b m Hm. rewrite Forall_lookup in Hm. split.
  - intros Hlb Hlm. unfold ex_crt. f_equal.
    assert (forall xs s, (forall i, i ∈ xs -> (i < length a)%nat) -> rfor xs (ex_crt_body a b m) s = rfor xs (ex_crt_body a (take (length a) b) (take (length a) m)) s) as H.
    { induction xs as [|i xs IH]; intros s Hi; [reflexivity|]. cbn [rfor]. pose proof (Hi i ltac:(left)) as Hia.
      assert (ex_crt_body a b m i s = ex_crt_body a (take (length a) b) (take (length a) m) i s) as ->.
      { unfold ex_crt_body, vget. rewrite !lookup_take by lia. reflexivity. }
      destruct (ex_crt_body _ _ _ _ _); [|reflexivity|reflexivity]. apply IH. intros k Hk. apply Hi. right. exact Hk. }
    apply H. intros i Hi. unfold range in Hi. apply elem_of_seq in Hi. lia.
  - intros H. unfold ex_crt, range. set (k := Nat.min (length b) (length m)). rewrite Nat.sub_0_r.
    replace (length a) with (k + S (length a - k - 1))%nat by lia. rewrite seq_app, rfor_app. cbn [seq Nat.add].
    pose proof (crt_loop_ends a b m (seq 0 k) (Some (0, 1)) Hm) as Hd.
    destruct (rfor (seq 0 k) (ex_crt_body a b m) (Some (0, 1))) as [s| |]; [|right; reflexivity|contradiction]. cbn [mbind res_bind rfor].
    destruct s as [[x l]|].
    + right. rewrite crt_body_short; [reflexivity|lia|exact Hm].
    + left. change (ex_crt_body a b m k None) with (Ok (A:=option (Z * Z)) None). cbn [mbind res_bind].
      assert (forall xs, rfor xs (ex_crt_body a b m) None = Ok None) as -> by (induction xs as [|y xs IH]; [reflexivity|exact IH]). reflexivity.
Qed.
Print Assumptions C34_lengths_partial.

Example C34_any_nonvacuous : ex_crt [-3; 5; 1] [3; 1; -3] [6; 4; -10] = Ok (Some (17, 20)) /\ ex_crt [-3] [3] [6] = Ok (Some (-1, -2)) /\ ex_crt [-2] [1] [4] = Ok None.
Proof. vm_compute. auto. Qed.

Example C34_lengths_nonvacuous : ex_crt [1] [2; 7] [5; 9; 9] = Ok (Some (2, 5)) /\ ex_crt [1; 1] [2] [5; 3] = Panic /\ ex_crt [2; 1] [1] [4] = Ok None.
Proof. vm_compute. auto. Qed.

Example C34_nonvacuous : ex_crt [1; 2; 3] [2; 4; 6] [4; 6; 9] = Ok (Some (2, 12)) /\ ex_crt [2] [1] [4] = Ok None.
Proof. vm_compute. auto. Qed.
Close Scope Z_scope.
