(** Properties C58, C59 and C70: text form, equality and hash of modints, and the two predefined static moduli. *)
From Coq Require Import Znumtheory Zpow_facts.
From Verif Require Import Prelude IntModel InputSpec InputModel InputProps NumProof IMathModel IMathSpec IMathProof
  ModIntModel ModIntSpec ModIntProof ModIntProps.
Open Scope Z_scope.

(** [plain w v]: w is the usual way to write v >= 0: digits, no sign, no leading zero. *)
Definition plain (w : list Z) (v : Z) : Prop :=
  Forall (fun c => 48 <= c <= 57) w /\ decimal w = v /\ w <> [] /\ (head w = Some 48 -> w = [48]).

Lemma decimal_app ds c : decimal (ds ++ [c]) = 10 * decimal ds + (c - 48).
Proof. unfold decimal. rewrite foldl_app. reflexivity. Qed.

Lemma u32_fmt_app f n acc : u32_fmt f n acc = u32_fmt f n [] ++ acc.
Proof.
  revert n acc. induction f as [|f IH]; intros n acc; [reflexivity|]. cbn [u32_fmt].
  destruct (n / 10 =? 0); [reflexivity|]. rewrite (IH _ [_]), (IH _ (_ :: acc)), <- app_assoc. reflexivity.
Qed.

Lemma u32_fmt_ok f : forall n, 0 <= n < 10 ^ Z.of_nat f -> (0 < f)%nat -> plain (u32_fmt f n []) n /\ (0 < n -> head (u32_fmt f n []) <> Some 48).
Proof.
  induction f as [|f IH]; intros n Hn Hf; [lia|]. cbn [u32_fmt].
  pose proof (Z.mod_pos_bound n 10 ltac:(lia)). pose proof (Z.div_mod n 10 ltac:(lia)).
  destruct (Z.eqb_spec (n / 10) 0) as [E|E].
  - split; [split; [|split; [|split]]|].
    + repeat constructor; lia.
    + unfold decimal. cbn [foldl]. lia.
    + discriminate.
    + intros [= H1]. rewrite H1. reflexivity.
    + intros Hp [= H1]. lia.
  - assert (0 <= n / 10) by (apply Z.div_pos; lia).
    assert (n / 10 < 10 ^ Z.of_nat f).
    { apply Z.div_lt_upper_bound; [lia|]. rewrite <- Z.pow_succ_r, <- Nat2Z.inj_succ by lia. lia. }
    destruct (decide (f = 0%nat)) as [->|]; [cbn in *; lia|].
    destruct (IH (n / 10)) as ((Hd & Hv & Hne & Hh) & Hp); [lia..|]. rewrite u32_fmt_app.
    assert (Hhead : head (u32_fmt f (n / 10) [] ++ [48 + n mod 10]) = head (u32_fmt f (n / 10) [])).
    { destruct (u32_fmt f (n / 10) []); [contradiction|reflexivity]. }
    split; [split; [|split; [|split]]|].
    + apply Forall_app. split; [exact Hd|]. repeat constructor; lia.
    + rewrite decimal_app, Hv. lia.
    + intros [_ ?]%app_eq_nil. discriminate.
    + rewrite Hhead. intros Hx. exfalso. apply Hp; [lia|exact Hx].
    + intros _. rewrite Hhead. apply Hp. lia.
Qed.

(** C58: parsing accepts the decimal numerals of i64 and gives their residue, other strings panic; printing writes the
    representative in plain decimal; parsing what was printed gives the value back. *)
Theorem C58_from_str : forall m s, 1 <= m < 2 ^ 32 ->
  (forall v, numeral i64 s v -> exists r, mi_from_str m s = Ok r /\ mod_of v m r) /\
  ((forall v, ~ numeral i64 s v) -> mi_from_str m s = Panic).
Proof.
  intros m s Hm. assert (Hi : i64 ∈ prim_types) by (unfold prim_types; repeat constructor).
  unfold mi_from_str. split.
  - intros v Hv. rewrite (proj2 (C51_parse i64 s v Hi) Hv).
    assert (in_ty i64 v) as Hin by (destruct Hv as (? & ? & _ & _ & _ & Hin & _); exact Hin).
    apply C43_new; assumption.
  - intros Hn. destruct (parse_int i64 s) as [v|] eqn:E; [|reflexivity].
    exfalso. apply (Hn v). apply C51_parse; assumption.
Qed.
Print Assumptions C58_from_str.

Theorem C58_display : forall m v, 1 <= m < 2 ^ 32 -> 0 <= v < m ->
  plain (mi_display v) v /\ mi_from_str m (mi_display v) = Ok v.
Proof.
  intros m v Hm Hv. unfold mi_display.
  destruct (u32_fmt_ok 10 v) as [P _]; [cbn; lia|lia|]. split; [exact P|].
  destruct P as (Hd & Hval & Hne & _). destruct (C58_from_str m (u32_fmt 10 v []) Hm) as [H _].
  destruct (H v) as (r & E & Hr).
  { exists [], (u32_fmt 10 v []). split; [reflexivity|]. split; [exact Hne|]. split; [exact Hd|].
    split; [rewrite i64_range; lia|]. left. auto. }
  rewrite E. f_equal. apply mod_of_eq in Hr; [|lia]. rewrite Hr. apply Z.mod_small. lia.
Qed.
Print Assumptions C58_display.

Example C58_nonvacuous : mi_from_str 7 [45; 49; 48] = Ok 4 /\ mi_from_str 7 [49; 120] = Panic /\ mi_display 1050 = [49; 48; 53; 48] /\
  mi_display 0 = [48] /\ mi_display 4294967294 = [52; 50; 57; 52; 57; 54; 55; 50; 57; 52] /\ numeral i64 [45; 49; 48] (-10).
Proof.
  repeat (split; [vm_compute; reflexivity|]). exists [45], [49; 48]. split; [reflexivity|]. split; [discriminate|].
  split; [repeat constructor; lia|]. split; [rewrite i64_range; lia|]. right. auto.
Qed.

(** C70: `==` is congruence of the integers the modints were made from, whatever their types; equal modints hash equal (so they
    are one key of a hash map), and different ones give the hasher different bytes. *)
Theorem C70_eq_hash : forall m T1 T2 x y a b, 1 <= m < 2 ^ 32 -> T1 ∈ prim_types -> T2 ∈ prim_types -> in_ty T1 x -> in_ty T2 y ->
  mi_new m T1 x = Ok a -> mi_new m T2 y = Ok b ->
  (mi_eq a b = true <-> (m | x - y)) /\ (mi_hash a = mi_hash b <-> (m | x - y)) /\ (mi_eq a b = true <-> mi_hash a = mi_hash b).
Proof.
  intros m T1 T2 x y a b Hm H1 H2 Hx Hy Ea Eb.
  destruct (C43_new T1 x m H1 Hx Hm) as (a' & Ea' & Ha). assert (a' = a) as -> by congruence.
  destruct (C43_new T2 y m H2 Hy Hm) as (b' & Eb' & Hb). assert (b' = b) as -> by congruence.
  assert (Hab : a = b <-> (m | x - y)).
  { destruct Ha as [Ha [c Hc]], Hb as [Hb [d Hd]]. split.
    - intros ->. exists (c - d). lia.
    - intros [k Hk]. assert (a - b = (k - c + d) * m) by lia. assert (k - c + d = 0) by nia. lia. }
  assert (Hh : mi_hash a = mi_hash b <-> a = b).
  { split; [|intros ->; reflexivity]. unfold mi_hash. intros E. injection E as E1 E2 E3 E4.
    destruct Ha as [Ha _], Hb as [Hb _].
    rewrite (Z.mod_small (a / 256 / 256 / 256)), (Z.mod_small (b / 256 / 256 / 256)) in E4.
    2,3: rewrite !Z.div_div by lia; split; [apply Z.div_pos; lia|apply Z.div_lt_upper_bound; lia].
    pose proof (Z.div_mod a 256). pose proof (Z.div_mod b 256). pose proof (Z.div_mod (a / 256) 256). pose proof (Z.div_mod (b / 256) 256).
    pose proof (Z.div_mod (a / 256 / 256) 256). pose proof (Z.div_mod (b / 256 / 256) 256). lia. }
  unfold mi_eq. rewrite Z.eqb_eq, Hh. tauto.
Qed.
Print Assumptions C70_eq_hash.

Example C70_nonvacuous : mi_new 1000000007 i64 (-1) = Ok 1000000006 /\ mi_new 1000000007 u32 2000000013 = Ok 1000000006 /\ mi_eq 1000000006 1000000006 = true /\ mi_hash 1000000006 = [6; 202; 154; 59] /\ (1000000007 | -1 - 2000000013).
Proof. repeat (split; [vm_compute; reflexivity|]). exists (-2). reflexivity. Qed.

(** Trial division by the odd numbers below r. *)
Fixpoint no_odd_factor (f : nat) (r n : Z) : bool :=
  match f with
  | O => n <? r * r
  | S f => negb (n mod r =? 0) && no_odd_factor f (r + 2) n
  end.
Lemma no_odd_factor_ok f : forall r n, 0 < r -> Z.odd r = true -> no_odd_factor f r n = true ->
  (forall d, 1 < d < r -> ~ (d | n)) -> Z.odd n = true -> 1 < n -> prime n.
Proof.
  induction f as [|f IH]; intros r n Hr Ho H Hd Hn1 Hn.
  - cbn [no_odd_factor] in H. apply Z.ltb_lt in H. apply prime_alt. split; [lia|].
    intros d Hd1 [c Hc]. destruct (Z_lt_le_dec d r); [apply (Hd d); [lia|exists c; exact Hc]|].
    apply (Hd c); [nia|]. exists d. lia.
  - cbn [no_odd_factor] in H. apply andb_true_iff in H as [H1 H2]. apply negb_true_iff, Z.eqb_neq in H1.
    apply (IH (r + 2) n); try assumption; [lia|rewrite Z.odd_add, Ho; reflexivity|].
    intros d Hd1 Hx. destruct (Z_lt_le_dec d r) as [|Hge]; [apply (Hd d); [lia|exact Hx]|].
    destruct (Z.eq_dec d r) as [->|]; [apply H1, Z.mod_divide; [lia|exact Hx]|].
    assert (d = r + 1) as -> by lia. destruct Hx as [c Hc].
    assert (Z.odd n = false) as Hf by (rewrite Hc, Z.odd_mul, Z.odd_add, Ho; cbn; apply andb_false_r). congruence.
Qed.
Lemma prime_998244353 : prime 998244353.
Proof.
  apply (no_odd_factor_ok (Z.to_nat 15800) 3); [lia|reflexivity| |intros d Hd [c Hc]; assert (d = 2) as -> by lia; lia|reflexivity|lia].
  vm_compute. reflexivity.
Qed.
Lemma prime_1000000007 : prime 1000000007.
Proof.
  apply (no_odd_factor_ok (Z.to_nat 15812) 3); [lia|reflexivity| |intros d Hd [c Hc]; assert (d = 2) as -> by lia; lia|reflexivity|lia].
  vm_compute. reflexivity.
Qed.

(** C59: ModInt998244353 and ModInt1000000007 are the fields of that many elements: their modulus() is the number in
    the name, it is prime, and every non-zero value has an inverse, on the Fermat path their hint selects. *)
Theorem C59_predefined : forall c p, (c = Mod998244353 /\ p = 998244353) \/ (c = Mod1000000007 /\ p = 1000000007) ->
  mc_m c = p /\ prime p /\ c = static_ctx p true /\
  (forall a, 0 < a < p -> exists y, mc_inv c a = Ok y /\ 0 < y < p /\ (p | a * y - 1)) /\
  mc_inv c 0 = Panic.
Proof.
  intros c p Hc. assert (prime p /\ c = static_ctx p true /\ p < 2 ^ 31) as (Hp & -> & Hp31).
  { destruct Hc as [[-> ->]|[-> ->]]; (split; [apply prime_998244353||apply prime_1000000007|split; [reflexivity|lia]]). }
  pose proof (prime_ge_2 p Hp).
  split; [reflexivity|]. split; [exact Hp|]. split; [reflexivity|]. split; [|reflexivity].
  intros a Ha. destruct (C45_inv_partial p a) as [H1 _]; [lia..|]. destruct (H1 Hp Hp31) as [[Hu _] _].
  destruct Hu as (y & E & Hy & Hd).
  { apply Zgcd_1_rel_prime, rel_prime_sym. apply prime_rel_prime; [exact Hp|]. intros [k Hk]. nia. }
  exists y. split; [exact E|]. split; [|exact Hd]. destruct (Z.eq_dec y 0) as [->|]; [|lia].
  exfalso. destruct Hd as [k Hk]. nia.
Qed.
Print Assumptions C59_predefined.

Example C59_nonvacuous : mc_inv Mod998244353 2 = Ok 499122177 /\ mc_inv Mod1000000007 3 = Ok 333333336.
Proof. split; vm_compute; reflexivity. Qed.
Close Scope Z_scope.
