(** C104: what the arrays of kmp and z_function say about a word, and searching with kmp, z_function and AhoCorasick. *)
From Verif Require Import Prelude PrefixModel PrefixSpec PrefixProps AhoModel AhoSpec AhoProps WordsSpec WordsProof.

Section Words.
  Context {T : Type} (eqb : T -> T -> bool) (Heq : forall a b, eqb a b = true <-> a = b).

  (** The loop j = pi[j - 1] started at pi[i] meets exactly the borders of s[0..=i]. *)
  Theorem C104_borders : forall s pi i k, kmp eqb s = Ok pi -> pi !! i = Some k ->
    forall k', k' ∈ follow (S k) pi k <-> border (take (i + 1) s) k'.
  Proof.
    intros s pi i k E Hk k'. destruct (C15_kmp eqb Heq s) as (pi' & E' & Hpi). rewrite E in E'. injection E' as <-.
    destruct (proj2 Hpi i k Hk) as [Hb Hmax]. pose proof (lookup_lt_Some _ _ _ Hk) as Hi. rewrite (proj1 Hpi) in Hi.
    apply (follow_borders s pi Hpi (S k) (i + 1) k); [lia|exact Hb|exact Hmax|lia].
  Qed.

  (** The Z array gives the borders as well. *)
  Theorem C104_z_borders : forall s z i k, z_function eqb s = Ok z -> i < length s -> 0 < k <= i ->
    exists x, z !! (i + 1 - k) = Some x /\ (border (take (i + 1) s) k <-> k <= x).
  Proof.
    intros s z i k E. destruct (C16_z_function eqb Heq s) as (z' & E' & Hz). rewrite E in E'. injection E' as <-. apply (z_borders s z Hz).
  Qed.

  (** The length minus the last entry of kmp is the smallest period. *)
  Theorem C104_period : forall s pi k, kmp eqb s = Ok pi -> s <> [] -> pi !! (length s - 1) = Some k ->
    period s (length s - k) /\ forall e, period s e -> length s - k <= e.
  Proof.
    intros s pi k E Hs Hk. destruct (C15_kmp eqb Heq s) as (pi' & E' & Hpi). rewrite E in E'. injection E' as <-.
    assert (length s <> 0) by (destruct s; [contradiction|cbn; lia]).
    destruct (proj2 Hpi _ _ Hk) as [Hb Hmax]. replace (length s - 1 + 1) with (length s) in Hb, Hmax by lia. rewrite firstn_all in Hb, Hmax.
    split; [apply (border_period s k Hs); exact Hb|]. intros e He. destruct (decide (e < length s)) as [Hlt|Hge].
    - assert (0 < e) by apply He. specialize (Hmax (length s - e)). assert (length s - e <= k); [|lia]. apply Hmax, border_period; [exact Hs|].
      split; [lia|]. replace (length s - (length s - e)) with e by lia. exact He.
    - lia.
  Qed.

  (** With that d: if d divides the length, s is a power of its first d letters; and every proper power has its root's length
      a multiple of d.  So s is a proper power if and only if d is a proper divisor of its length. *)
  Theorem C104_power : forall s pi k, kmp eqb s = Ok pi -> s <> [] -> pi !! (length s - 1) = Some k ->
    let d := length s - k in
    (forall q, length s = q * d -> power s (take d s) q) /\
    forall w q, power s w q -> 2 <= q -> exists m, length w = m * d.
  Proof.
    intros s pi k E Hs Hk d. destruct (C104_period s pi k E Hs Hk) as [Hp Hmin]. fold d in Hp, Hmin. split.
    - intros q Hq. apply period_power; assumption.
    - intros w q Hw Hq. apply (least_period_power s d w q Hp Hmin Hw Hq). intros ->.
      pose proof (power_length s [] q Hw) as Hl. cbn in Hl. rewrite Nat.mul_0_r in Hl. destruct s; [contradiction|discriminate].
  Qed.

  (** Searching with kmp on p, a separator occurring in neither word, and t. *)
  Theorem C104_kmp_search : forall p t c, c ∉ p -> c ∉ t ->
    exists pi, kmp eqb (p ++ [c] ++ t) = Ok pi /\
    forall i, i < length t -> exists k, pi !! (length p + 1 + i) = Some k /\ k <= length p /\ (k = length p <-> stops_at t p i).
  Proof.
    intros p t c Hp Ht. destruct (C15_kmp eqb Heq (p ++ [c] ++ t)) as (pi & E & Hpi). exists pi. split; [exact E|]. apply (kmp_search p t c pi Hp Ht Hpi).
  Qed.

  (** Searching with z_function needs no separator. *)
  Theorem C104_z_search : forall p t, p <> [] ->
    exists z, z_function eqb (p ++ t) = Ok z /\
    forall i, i < length t -> exists k, z !! (length p + i) = Some k /\ (length p <= k <-> starts_at t p i).
  Proof.
    intros p t Hp. destruct (C16_z_function eqb Heq (p ++ t)) as (z & E & Hz). exists z. split; [exact E|]. apply (z_search p t z Hp Hz).
  Qed.
End Words.
Print Assumptions C104_borders.
Print Assumptions C104_z_borders.
Print Assumptions C104_period.
Print Assumptions C104_power.
Print Assumptions C104_kmp_search.
Print Assumptions C104_z_search.

(** An AhoCorasick of one pattern, kmp with a separator outside the alphabet, and z_function find the same occurrences. *)
Theorem C104_agree : forall off N p t c, p <> [] -> in_alphabet off N p -> in_alphabet off N t -> ~ (off <= c < off + N) ->
  exists a r pi z, aho_from off N [p] = Ok a /\ aho_find_all off a t = Ok r /\
    kmp Nat.eqb (p ++ [c] ++ t) = Ok pi /\ z_function Nat.eqb (p ++ t) = Ok z /\
    forall i, i < length t -> exists l k, r !! i = Some l /\ (l = [0] \/ l = []) /\
      pi !! (length p + 1 + i) = Some k /\ (l = [0] <-> k = length p) /\
      (i + 1 < length p -> l = []) /\
      (length p <= i + 1 -> exists x, z !! (i + 1) = Some x /\ (l = [0] <-> length p <= x)).
Proof.
  intros off N p t c Hp Ap At Hc.
  destruct (C17_from_find_all off N [p]) as (a & Ea & Ha); [apply NoDup_singleton|apply Forall_singleton; auto|].
  destruct (Ha t At) as (r & Er & Lr & Hr).
  assert (forall l, in_alphabet off N l -> c ∉ l) as Hno.
  { intros l Hl Hcl. unfold in_alphabet in Hl. rewrite Forall_forall in Hl. apply Hc, Hl, Hcl. }
  destruct (C104_kmp_search Nat.eqb Nat.eqb_eq p t c (Hno p Ap) (Hno t At)) as (pi & Epi & Hpi).
  destruct (C104_z_search Nat.eqb Nat.eqb_eq p t Hp) as (z & Ez & Hz).
  exists a, r, pi, z. split; [exact Ea|]. split; [exact Er|]. split; [exact Epi|]. split; [exact Ez|].
  intros i Hi. destruct (lookup_lt_is_Some_2 r i) as [l Hl]; [lia|]. destruct (Hpi i Hi) as (k & Hk & Hkp & Hks).
  destruct (Hr i l Hl) as (Nl & Il & _).
  assert (l = [0] \/ l = []) as Hcases.
  { destruct l as [|x l]; [right; reflexivity|left]. assert (forall y, y ∈ x :: l -> y = 0) as H0.
    { intros y Hy. apply Il in Hy as (s & Hs & _). destruct y; [reflexivity|discriminate]. }
    assert (x = 0) as -> by (apply H0; left). destruct l as [|y l]; [reflexivity|].
    assert (y = 0) as -> by (apply H0; right; left). apply NoDup_cons in Nl as [Nl _]. exfalso. apply Nl. left. }
  assert (l = [0] <-> stops_at t p i) as Hst.
  { split.
    - intros ->. destruct (proj1 (Il 0) ltac:(left)) as (s & [= <-] & He). exact He.
    - intros He. assert (0 ∈ l) as H0 by (apply Il; exists p; split; [reflexivity|exact He]).
      destruct Hcases as [->| ->]; [reflexivity|inversion H0]. }
  exists l, k. split; [exact Hl|]. split; [exact Hcases|]. split; [exact Hk|]. split; [rewrite Hst; symmetry; exact Hks|]. split.
  - intros Hlt. destruct Hcases as [H|H]; [exfalso|exact H]. apply Hst, (starts_stops t p i Hp) in H. lia.
  - intros Hle. assert (i + 1 - length p < length t) as Hj by (destruct p; [contradiction|cbn in *; lia]).
    destruct (Hz (i + 1 - length p) Hj) as (x & Hx & Hxs). replace (length p + (i + 1 - length p)) with (i + 1) in Hx by lia.
    exists x. split; [exact Hx|]. rewrite Hst, Hxs, (starts_stops t p i Hp). tauto.
Qed.
Print Assumptions C104_agree.

(** abaab repeated: smallest period 3 in the first word, which is no power; the second is a cube. *)
Example C104_nonvacuous :
  kmp Nat.eqb [1;2;1;1;2;1;1;2] = Ok [0;0;1;1;2;3;4;5] /\ follow 6 [0;0;1;1;2;3;4;5] 5 = [5;2;0] /\
  kmp Nat.eqb [1;2;1;2;1;2] = Ok [0;0;1;2;3;4] /\ power [1;2;1;2;1;2] [1;2] 3 /\
  (exists pi, kmp Nat.eqb ([1;2;1] ++ [9] ++ [1;2;1;2;1]) = Ok pi /\ drop 4 pi = [1;2;3;2;3]) /\
  (exists z, z_function Nat.eqb ([1;2;1] ++ [1;2;1;2;1]) = Ok z /\ drop 3 z = [3;0;3;0;1]) /\
  (exists a, aho_from 1 2 [[1;2;1]] = Ok a /\ aho_find_all 1 a [1;2;1;2;1] = Ok [[];[];[0];[];[0]]).
Proof. do 4 (split; [vm_compute; reflexivity|]). split; [|split]; eexists; split; vm_compute; reflexivity. Qed.
