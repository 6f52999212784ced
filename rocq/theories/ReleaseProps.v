(** Properties of the release build (C60, C61). *)
From Coq Require Import Znumtheory.
From Verif Require Import Prelude NumTheory ArraySpec IntModel IMathModel IMathSpec IMathProof IMathRoot NumProof NumModel ModIntModel ModIntProof UnionFindModel UnionFindProof ReleaseModel.
Open Scope Z_scope.

Lemma inv_release_pow m a : 2 <= m < 2 ^ 32 -> 0 < a < m -> static_inv_release m true a = Ok (a ^ (m - 2) mod m).
Proof.
  intros Hm Ha. unfold static_inv_release. destruct (Z.eqb_spec a 0); [lia|].
  assert (wrap u32 (m - 2) = m - 2) as -> by (unfold wrap; change (it_min u32) with 0; change (it_bits u32) with 32; rewrite Z.mod_small; lia).
  apply (pow_ok m); try lia; [apply static_mul_ok; lia|rewrite u64_range; lia].
Qed.

(** C60: in a release build inv() with the prime hint is exact for every prime u32 modulus (the debug build panics from 2^31
    on); a result of the debug build is also the result of the release build; and on a wrong hint the release build answers
    a^(m-2) without complaint, which is an inverse exactly when a^(m-1) = 1 mod m. *)
Theorem C60_inv_release : forall m a, 1 <= m < 2 ^ 32 -> 0 <= a < m ->
  (prime m -> a <> 0 -> exists y, static_inv_release m true a = Ok y /\ 0 <= y < m /\ (m | a * y - 1)) /\
  (prime m -> a <> 0 -> forall b, 0 <= b < m -> exists q, mi_div (static_ctx_release m true) b a = Ok q /\ 0 <= q < m /\ (m | q * a - b)) /\
  (static_inv_release m true 0 = Panic) /\
  (forall hint y, static_inv m hint a = Ok y -> static_inv_release m hint a = Ok y) /\
  (2 <= m -> a <> 0 -> exists y, static_inv_release m true a = Ok y /\ 0 <= y < m /\ (m | y - a ^ (m - 2)) /\ ((m | a * y - 1) <-> (m | a ^ (m - 1) - 1))).
Proof.
  intros m a Hm Ha.
  assert (2 <= m -> a <> 0 -> exists y, static_inv_release m true a = Ok y /\ 0 <= y < m /\ (m | y - a ^ (m - 2)) /\ ((m | a * y - 1) <-> (m | a ^ (m - 1) - 1))) as Hpow.
  { intros H2 Hn. exists (a ^ (m - 2) mod m). split; [apply inv_release_pow; lia|].
    split; [apply Z.mod_pos_bound; lia|]. split; [apply Z.mod_divide; [lia|]; rewrite Zminus_mod_idemp_l, Z.sub_diag; reflexivity|].
    assert (a ^ (m - 1) = a * a ^ (m - 2)) as -> by (rewrite <- Z.pow_succ_r by lia; f_equal; lia).
    rewrite <- !Z.mod_divide by lia. rewrite (Zminus_mod (a * (_ mod m))), Zmult_mod_idemp_r, <- Zminus_mod. reflexivity. }
  assert (prime m -> a <> 0 -> exists y, static_inv_release m true a = Ok y /\ 0 <= y < m /\ (m | a * y - 1)) as Hinv.
  { intros Hp Hn. pose proof (prime_ge_2 m Hp) as H2. destruct (Hpow H2 Hn) as (y & E & Hy & _ & Hiff). exists y. split; [exact E|]. split; [exact Hy|].
    apply Hiff. apply Z.mod_divide; [lia|]. rewrite Zminus_mod, (@fermat_Z m a Hp) by (intros Hd; apply Z.divide_pos_le in Hd; lia).
    rewrite (Z.mod_small 1) by lia. reflexivity. }
  split; [exact Hinv|]. split; [|split; [reflexivity|split; [|exact Hpow]]].
  - intros Hp Hn b Hb. apply (mi_div_ok (static_ctx_release m true) m); try assumption; [lia|apply static_mul_ok; exact Hm|]. apply Hinv; assumption.
  - intros hint y. destruct hint; [|auto]. unfold static_inv, static_inv_release. destruct (a =? 0); [auto|]. intros H.
    apply rbind_ok_inv in H as (v & _ & H). apply rbind_ok_inv in H as (p & _ & H). apply rbind_ok_inv in H as (_ & _ & H). apply rbind_ok_inv in H as (e & He & H).
    unfold isub in He. apply chk_inv in He as [<- He]. rewrite u32_range in He.
    assert (wrap u32 e = e) as -> by (unfold wrap; change (it_min u32) with 0; change (it_bits u32) with 32; rewrite Z.mod_small; lia). exact H.
Qed.
Print Assumptions C60_inv_release.
Example C60_nonvacuous : static_inv_release 4294967291 true 2 = Ok 2147483646 /\ static_inv 4294967291 true 2 = Panic /\
  static_inv_release 10 true 3 = Ok 1 /\ static_inv_release 10 false 3 = Ok 7.
Proof. repeat split; vm_compute; reflexivity. Qed.
Close Scope Z_scope.

(** ** Union-find *)
Lemma join_release_ok n u x y : UInv n u -> x < n -> y < n -> exists u' b, uf_join_release u x y = Ok (u', b) /\ UInv n u'.
Proof.
  intros I Hx Hy. unfold uf_join_release. rewrite (ui_n _ _ I).
  destruct (Nat.ltb_spec x n); [|lia]. destruct (Nat.ltb_spec y n); [|lia]. cbn [rassert mbind res_bind].
  destruct (find_ok n u x I Hx) as (u1 & rx & -> & Rx & _ & S1 & Z1 & I1). cbn [mbind res_bind].
  destruct (find_ok n u1 y I1 Hy) as (u2 & ry & -> & Ry & _ & S2 & Z2 & I2). cbn [mbind res_bind].
  apply (same_roots_iff (uf_fa u) (uf_fa u1)) in Ry; [|apply (ui_ac _ _ I)|exact S1].
  pose proof (same_roots_trans _ _ _ S1 S2) as S12.
  destruct (Nat.eqb_spec rx ry) as [E|Hne]; [eauto|].
  destruct (lookup_lt_is_Some_2 (uf_sz u2) x) as [sx Hsx]; [rewrite (ui_sz _ _ I2); exact Hx|].
  destruct (lookup_lt_is_Some_2 (uf_sz u2) y) as [sy Hsy]; [rewrite (ui_sz _ _ I2); exact Hy|].
  rewrite (vget_ok _ _ _ Hsx), (vget_ok _ _ _ Hsy). cbn [mbind res_bind].
  destruct (if (sy <? sx)%Z then (ry, rx) else (rx, ry)) as [fx fy].
  rewrite (vset_ok (uf_fa u2)) by (rewrite (ui_fa _ _ I2); exact Hx). cbn [mbind res_bind].
  rewrite (vset_ok (uf_sz u2)) by (rewrite (ui_sz _ _ I2); exact Hy). cbn [mbind res_bind].
  eexists _, true. split; [reflexivity|]. constructor; cbn [uf_n uf_fa uf_sz].
  - apply (ui_n _ _ I2).
  - rewrite insert_length. apply (ui_fa _ _ I2).
  - rewrite insert_length. apply (ui_sz _ _ I2).
  - apply (link_acyclic _ _ _ rx ry); [apply (ui_ac _ _ I2)|apply S12; exact Rx|apply S12; exact Ry|exact Hne].
Qed.

(** The arguments of a call are vertices. *)
Definition uf_valid (n : nat) (o : uf_op) : Prop :=
  match o with UfFind i | UfSize i => i < n | UfSame x y | UfJoin x y => x < n /\ y < n | UfGroups => True end.

Lemma step_release n u o : UInv n u ->
  (uf_valid n o -> exists u' out, uf_step_release u o = Ok (u', out) /\ UInv n u') /\ (~ uf_valid n o -> uf_step_release u o = Panic).
Proof.
  intros I. destruct o as [i|x y|x y|x|]; cbn [uf_step_release uf_step uf_valid].
  - split; [intros Hi; destruct (find_ok n u i I Hi) as (u1 & r & -> & _ & _ & _ & _ & I1); cbn; eauto|].
    intros Hi. rewrite (find_panic n) by (assumption || lia). reflexivity.
  - split; [intros [Hx Hy]; destruct (is_same_ok n u x y I Hx Hy) as (u1 & b & -> & _ & _ & I1 & _); cbn; eauto|].
    intros H. unfold uf_is_same. rewrite (ui_n _ _ I). destruct (Nat.ltb_spec x n), (Nat.ltb_spec y n); try reflexivity. tauto.
  - split; [intros [Hx Hy]; destruct (join_release_ok n u x y I Hx Hy) as (u1 & b & -> & I1); cbn; eauto|].
    intros H. unfold uf_join_release. rewrite (ui_n _ _ I). destruct (Nat.ltb_spec x n), (Nat.ltb_spec y n); try reflexivity. tauto.
  - split; [intros Hx; destruct (size_ok n u x I Hx) as (u1 & r & s & -> & I1 & _); cbn; eauto|].
    intros H. unfold uf_size. rewrite (ui_n _ _ I). destruct (Nat.ltb_spec x n); [lia|reflexivity].
  - split; [|tauto]. intros _. destruct (groups_ok n u I) as (u1 & gs & -> & I1 & _). cbn. eauto.
Qed.

Lemma run_release n ops : forall u, UInv n u ->
  (Forall (uf_valid n) ops -> exists u' outs, run uf_step_release u ops = Ok (u', outs)) /\
  (~ Forall (uf_valid n) ops -> run uf_step_release u ops = Panic).
Proof.
  induction ops as [|o ops IH]; intros u I; cbn [run].
  - split; [eauto|]. intros H. exfalso. apply H. constructor.
  - destruct (step_release n u o I) as [H1 H2]. assert (uf_valid n o \/ ~ uf_valid n o) as [V|V].
    { destruct o; cbn; lia || tauto. }
    + destruct (H1 V) as (u1 & out & -> & I1). cbn [mbind res_bind]. destruct (IH u1 I1) as [J1 J2]. split.
      * intros (_ & Hf)%Forall_cons_1. destruct (J1 Hf) as (u2 & outs & ->). cbn. eauto.
      * intros Hf. rewrite J2; [reflexivity|]. intros Hf'. apply Hf. constructor; assumption.
    + rewrite H2 by exact V. split; [|reflexivity]. intros (V' & _)%Forall_cons_1. contradiction.
Qed.

(** Sizes that are usize values; nothing wraps in a dev run that does not panic. *)
Definition sizes_u (u : uf) : Prop := Forall (fun s => 0 <= s < 2 ^ 64)%Z (uf_sz u).
Lemma find_sz u i u' r : uf_find u i = Ok (u', r) -> uf_sz u' = uf_sz u.
Proof. unfold uf_find. intros H. apply rbind_ok_inv in H as ([fa x] & _ & H). injection H as <- _. reflexivity. Qed.

Lemma step_agree u o u' out : sizes_u u -> uf_step u o = Ok (u', out) -> uf_step_release u o = Ok (u', out) /\ sizes_u u'.
Proof.
  intros Hs H. destruct o as [i|x y|x y|x|]; cbn [uf_step_release uf_step] in *.
  - split; [exact H|]. apply rbind_ok_inv in H as ([u1 r] & H1 & H). injection H as <- _. unfold sizes_u. rewrite (find_sz _ _ _ _ H1). exact Hs.
  - split; [exact H|]. apply rbind_ok_inv in H as ([u1 b] & H1 & H). injection H as <- _. unfold uf_is_same in H1.
    apply rbind_ok_inv in H1 as (_ & _ & H1). apply rbind_ok_inv in H1 as (_ & _ & H1). apply rbind_ok_inv in H1 as ([u2 fx] & F1 & H1).
    apply rbind_ok_inv in H1 as ([u3 fy] & F2 & H1). injection H1 as <- _. unfold sizes_u. rewrite (find_sz _ _ _ _ F2), (find_sz _ _ _ _ F1). exact Hs.
  - apply rbind_ok_inv in H as ([u1 b] & H1 & H). injection H as <- <-.
    assert (uf_join_release u x y = Ok (u1, b) /\ sizes_u u1) as [E Hs1]; [|rewrite E; auto].
    unfold uf_join in H1. unfold uf_join_release. destruct (rassert (x <? uf_n u)) as [?| |]; cbn [mbind res_bind] in *; try discriminate.
    destruct (rassert (y <? uf_n u)) as [?| |]; cbn [mbind res_bind] in *; try discriminate.
    destruct (uf_find u x) as [[u2 fx]| |] eqn:F1; cbn [mbind res_bind] in *; try discriminate.
    destruct (uf_find u2 y) as [[u3 fy]| |] eqn:F2; cbn [mbind res_bind] in *; try discriminate.
    assert (sizes_u u3) as Hs3 by (unfold sizes_u; rewrite (find_sz _ _ _ _ F2), (find_sz _ _ _ _ F1); exact Hs).
    destruct (fx =? fy); [injection H1 as <- <-; auto|].
    destruct (vget (uf_sz u3) x) as [sx| |] eqn:Ex; cbn [mbind res_bind] in *; try discriminate.
    destruct (vget (uf_sz u3) y) as [sy| |] eqn:Ey; cbn [mbind res_bind] in *; try discriminate.
    destruct (if (sy <? sx)%Z then (fy, fx) else (fx, fy)) as [fx' fy'].
    destruct (vset (uf_fa u3) x y) as [fa| |] eqn:Ef; cbn [mbind res_bind] in *; try discriminate.
    unfold uadd in H1. destruct (Z.ltb_spec (sy + sx) (2 ^ 64)) as [Hlt|]; cbn [mbind res_bind] in *; try discriminate.
    apply vget_ok_iff in Ex, Ey. unfold sizes_u in *. rewrite Forall_lookup in Hs3. pose proof (Hs3 _ _ Ex) as Rx. pose proof (Hs3 _ _ Ey) as Ry.
    assert (wrap usize (sy + sx) = (sy + sx)%Z) as ->.
    { unfold wrap. change (it_min usize) with 0%Z. change (it_bits usize) with 64%Z. rewrite Z.mod_small; lia. }
    destruct (vset (uf_sz u3) y (sy + sx)%Z) as [sz| |] eqn:Es; cbn [mbind res_bind] in *; try discriminate. injection H1 as <- <-. split; [reflexivity|].
    cbn [uf_sz]. pose proof (lookup_lt_Some _ _ _ Ey). rewrite vset_ok in Es by assumption. injection Es as <-.
    apply Forall_insert; [|lia]. apply Forall_lookup. exact Hs3.
  - split; [exact H|]. apply rbind_ok_inv in H as ([u1 b] & H1 & H). injection H as <- _. unfold uf_size in H1.
    apply rbind_ok_inv in H1 as (_ & _ & H1). apply rbind_ok_inv in H1 as ([u2 fx] & F1 & H1). apply rbind_ok_inv in H1 as (s & _ & H1). injection H1 as <- _.
    unfold sizes_u. rewrite (find_sz _ _ _ _ F1). exact Hs.
  - split; [exact H|]. apply rbind_ok_inv in H as ([u1 gs] & H1 & H). injection H as <- _. unfold uf_groups in H1.
    apply rbind_ok_inv in H1 as ([u2 r] & H1 & H2). injection H2 as <- _. unfold uf_groups_loop in H1.
    assert (forall l (f : nat -> uf * list (list nat) -> res (uf * list (list nat))) (a b : uf * list (list nat)),
      (forall i p q, f i p = Ok q -> uf_sz q.1 = uf_sz p.1) -> rfor l f a = Ok b -> uf_sz b.1 = uf_sz a.1) as HL.
    { induction l as [|i l IH]; intros f a b Hf E; cbn [rfor] in E; [injection E as ->; reflexivity|].
      apply rbind_ok_inv in E as (c & E1 & E2). rewrite (IH f c b Hf E2). eapply Hf. exact E1. }
    unfold sizes_u. apply HL in H1; [cbn in H1; rewrite H1; exact Hs|]. intros i [p pr] [q qr] E. cbn.
    apply rbind_ok_inv in E as ([v fx] & F1 & E). apply rbind_ok_inv in E as (g & _ & E). apply rbind_ok_inv in E as (rr & _ & E). injection E as <- _.
    exact (find_sz _ _ _ _ F1).
Qed.
Lemma run_agree ops : forall u u' outs, sizes_u u -> run uf_step u ops = Ok (u', outs) -> run uf_step_release u ops = Ok (u', outs).
Proof.
  induction ops as [|o ops IH]; intros u u' outs Hs H; cbn [run] in *; [exact H|].
  apply rbind_ok_inv in H as ([u1 out] & H1 & H). destruct (step_agree u o u1 out Hs H1) as [-> Hs1]. cbn [mbind res_bind].
  apply rbind_ok_inv in H as ([u2 outs2] & H2 & H). rewrite (IH u1 u2 outs2 Hs1 H2). exact H.
Qed.

(** C61: in a release build a history of calls panics exactly when some argument is out of range (in the debug build join may
    also panic on an overflowing size, see C54), and as long as the debug build does not panic both give the same answers. *)
Theorem C61_union_find_release : forall n ops,
  (Forall (uf_valid n) ops -> exists u outs, run uf_step_release (uf_new n) ops = Ok (u, outs)) /\
  (~ Forall (uf_valid n) ops -> run uf_step_release (uf_new n) ops = Panic) /\
  (forall u outs, run uf_step (uf_new n) ops = Ok (u, outs) -> run uf_step_release (uf_new n) ops = Ok (u, outs)).
Proof.
  intros n ops. destruct (run_release n ops (uf_new n) (new_inv n)) as [H1 H2]. split; [exact H1|]. split; [exact H2|].
  intros u outs. apply run_agree. unfold sizes_u. cbn. apply Forall_replicate. lia.
Qed.
Print Assumptions C61_union_find_release.
Example C61_nonvacuous : Forall (uf_valid 3) [UfJoin 0 1; UfJoin 0 2; UfSame 0 1; UfSize 2] /\
  fmap snd (run uf_step_release (uf_new 3) [UfJoin 0 1; UfJoin 0 2; UfSame 0 1; UfSize 2]) = Ok [UfBool true; UfBool true; UfBool false; UfNum 2].
Proof. split; [repeat constructor; cbn; lia|vm_compute; reflexivity]. Qed.
