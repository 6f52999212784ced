(** Property theorem for src/string: equality that is not reflexive, and the number of comparisons (C76). *)
From Coq Require Import Floats.SpecFloat.
From Verif Require Import Prelude PrefixModel PrefixCountModel PrefixRelSpec PrefixRelProof PrefixLogModel PrefixLogProof.

(** The counting models do what the models of C15 and C16 do, whatever the equality. *)
Theorem C76_same_code : forall {T : Type} (eqb : T -> T -> bool) (s : list T),
  kmp eqb s = fmap fst (kmp_count eqb s) /\ z_function eqb s = fmap fst (z_function_count eqb s).
Proof. intros T eqb s. split; [apply kmp_erase|apply z_erase]. Qed.
Print Assumptions C76_same_code.

(** kmp: any equality at all: no panic, an answer, at most 3 (n - 1) comparisons;
    a symmetric and transitive equality: the answer is the prefix function up to this equality. *)
Theorem C76_kmp : forall {T : Type} (eqb : T -> T -> bool) (s : list T),
  exists pi c, kmp_count eqb s = Ok (pi, c) /\ kmp eqb s = Ok pi /\ c <= 3 * (length s - 1) /\
    length pi = length s /\ (forall i k, pi !! i = Some k -> k <= i) /\
    ((forall a b, eqb a b = true -> eqb b a = true) -> (forall a b c, eqb a b = true -> eqb b c = true -> eqb a c = true) ->
     rel_prefix_function eqb s pi).
Proof.
  intros T eqb s. destruct (kmp_any eqb s) as (pi & c & E & Hl & Hb & Hc). exists pi, c. split; [exact E|].
  assert (kmp eqb s = Ok pi) as E' by (rewrite kmp_erase, E; reflexivity).
  do 4 (split; [assumption|]). intros Hs Ht. destruct (kmp_rel eqb Hs Ht s) as (pi' & E1 & H). congruence.
Qed.
Print Assumptions C76_kmp.

(** z_function: any equality: no panic, an answer; a symmetric and transitive equality: the Z array up to this equality, with at
    most 2 (n - 1) comparisons. *)
Theorem C76_z_function : forall {T : Type} (eqb : T -> T -> bool) (s : list T),
  exists z c, z_function_count eqb s = Ok (z, c) /\ z_function eqb s = Ok z /\
    length z = length s /\ (forall i k, z !! i = Some k -> i + k <= length s) /\
    ((forall a b, eqb a b = true -> eqb b a = true) -> (forall a b c, eqb a b = true -> eqb b c = true -> eqb a c = true) ->
     rel_z_array eqb s z /\ c <= 2 * (length s - 1)).
Proof.
  intros T eqb s. destruct (z_any eqb s) as (z & c & E & Hl & Hb). exists z, c. split; [exact E|].
  assert (z_function eqb s = Ok z) as E' by (rewrite z_erase, E; reflexivity).
  do 3 (split; [assumption|]). intros Hs Ht. destruct (z_rel eqb Hs Ht s) as (z' & c' & E1 & H & Hc).
  rewrite E in E1. injection E1 as <- <-. auto.
Qed.
Print Assumptions C76_z_function.

(** What is counted are the comparisons made: the count is the length of a list of pairs of positions, and any other equality that
    answers alike on the elements at these pairs leads to the same answer after the same comparisons. *)
Theorem C76_comparisons : forall {T : Type} (eqb : T -> T -> bool) (s : list T),
  (exists pi c l, kmp_count eqb s = Ok (pi, c) /\ length l = c /\
     forall eqb', (forall i j a b, (i, j) ∈ l -> s !! i = Some a -> s !! j = Some b -> eqb' a b = eqb a b) ->
     kmp eqb' s = Ok pi /\ kmp_count eqb' s = Ok (pi, c)) /\
  (exists z c l, z_function_count eqb s = Ok (z, c) /\ length l = c /\
     forall eqb', (forall i j a b, (i, j) ∈ l -> s !! i = Some a -> s !! j = Some b -> eqb' a b = eqb a b) ->
     z_function eqb' s = Ok z /\ z_function_count eqb' s = Ok (z, c)).
Proof.
  intros T eqb s. split.
  - destruct (kmp_any eqb s) as (pi & c & E & _). rewrite E. rewrite kmp_length in E. destruct (kmp_log eqb s) as [[pi' l]| |] eqn:El; try discriminate. injection E as -> <-.
    exists pi, (length l), l. split; [reflexivity|]. split; [reflexivity|]. intros eqb' H. destruct (kmp_tracks eqb eqb' s _ El) as [_ E'].
    assert (kmp_count eqb' s = Ok (pi, length l)) as Ec by (rewrite kmp_length, (E' H); reflexivity). rewrite kmp_erase, Ec. auto.
  - destruct (z_any eqb s) as (z & c & E & _). rewrite E. rewrite z_length in E. destruct (z_function_log eqb s) as [[z' l]| |] eqn:El; try discriminate. injection E as -> <-.
    exists z, (length l), l. split; [reflexivity|]. split; [reflexivity|]. intros eqb' H. destruct (z_tracks eqb eqb' s _ El) as [_ E'].
    assert (z_function_count eqb' s = Ok (z, length l)) as Ec by (rewrite z_length, (E' H); reflexivity). rewrite z_erase, Ec. auto.
Qed.
Print Assumptions C76_comparisons.

(** `==` of f64 (and f32): zeros are equal, NaN is not equal to itself, otherwise equal means the same float. *)
Lemma SFeqb_spec x y : SFeqb x y = true <->
  match x, y with
  | S754_zero _, S754_zero _ => True
  | S754_infinity b, S754_infinity b' => b = b'
  | S754_finite b m e, S754_finite b' m' e' => b = b' /\ m = m' /\ e = e'
  | _, _ => False
  end.
Proof.
  unfold SFeqb. destruct x as [b|b| |b m e], y as [b'|b'| |b' m' e']; cbn [SFcompare]; try (split; [discriminate|contradiction]);
    try (split; [auto|reflexivity]); try (destruct b; (split; [discriminate|contradiction]));
    try (destruct b'; (split; [discriminate|contradiction])).
  - destruct b, b'; split; try discriminate; auto.
  - change (Pos.compare_cont Eq m m') with (Pos.compare m m'). destruct (Z.compare_spec e e') as [->|H|H]; [destruct (Pos.compare_spec m m') as [->|H|H]|..];
      destruct b, b'; cbn; split; try discriminate; try (intros (? & ? & ?)); try discriminate; auto; exfalso; lia.
Qed.
Lemma SFeqb_sym x y : SFeqb x y = true -> SFeqb y x = true.
Proof. rewrite !SFeqb_spec. destruct x, y; auto. intros (? & ? & ?). auto. Qed.
Lemma SFeqb_trans x y z : SFeqb x y = true -> SFeqb y z = true -> SFeqb x z = true.
Proof. rewrite !SFeqb_spec. destruct x, y, z; auto; try contradiction; [congruence|]. intros (-> & -> & ->). auto. Qed.

(** So slices of floats, NaN included, are handled. *)
Theorem C76_floats : forall s : list spec_float,
  (exists pi, kmp SFeqb s = Ok pi /\ rel_prefix_function SFeqb s pi) /\
  exists z, z_function SFeqb s = Ok z /\ rel_z_array SFeqb s z.
Proof.
  intros s. destruct (C76_kmp SFeqb s) as (pi & ? & _ & E & _ & _ & _ & H). destruct (C76_z_function SFeqb s) as (z & ? & _ & E' & _ & _ & H').
  split; [exists pi|exists z]; (split; [assumption|]); [apply H|apply H']; first [exact SFeqb_sym | exact SFeqb_trans].
Qed.
Print Assumptions C76_floats.

(** NaN is unlike itself, +0 is like -0; counts on 9 and 10 elements. *)
Example C76_nonvacuous :
  let nan := S754_nan in let o := S754_zero false in let o' := S754_zero true in let i := S754_infinity false in
  kmp SFeqb [o; i; o'; i; nan; o'; i; o] = Ok [0; 0; 1; 2; 0; 1; 2; 3] /\
  kmp SFeqb [nan; nan; nan] = Ok [0; 0; 0] /\ z_function SFeqb [o; o'; nan; o; o; nan] = Ok [0; 1; 0; 2; 1; 0] /\
  kmp_count Nat.eqb [1;2;1;2;3;1;2;1;2;1] = Ok ([0;0;1;2;0;1;2;3;4;3], 16) /\
  z_function_count Nat.eqb [1;1;2;1;1;2;1;1;1] = Ok ([0;1;0;5;1;0;2;2;1], 13).
Proof. vm_compute. repeat split. Qed.
