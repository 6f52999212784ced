From Coq Require Import Znumtheory.
From Verif Require Import Prelude UtilModel ArraySpec FenwickModel FenwickSpec FenwickProof TallyModel TallySpec TallyProof LexModel LexSpec.
From Verif Require Import IntModel IMathModel IMathSpec ModIntModel FactorialModel FactorialSpec CountSpec CountProof SieveProof.
Close Scope Z_scope.

Lemma below_mono x y l : x <= y -> below x l <= below y l.
Proof. intros H. unfold below. induction l as [|z l IH]; [reflexivity|]. rewrite !filter_cons. destruct (decide (z < x)), (decide (z < y)); cbn [length]; lia. Qed.
Lemma below_self x l : below x (x :: l) = below x l.
Proof. unfold below. rewrite filter_cons, decide_False by lia. reflexivity. Qed.
Lemma tally_perm n l l' : l ≡ₚ l' -> tally n l = tally n l'.
Proof. intros H. unfold tally. apply map_ext. intros v. rewrite (proj1 (Permutation_count_occ Nat.eq_dec l l') H v). reflexivity. Qed.
Lemma bag_pref n t bag x : FInv 0%Z Z.add t (tally n bag) -> x <= n -> fw_pref 0%Z Z.add t x = Ok (Z.of_nat (below x bag)).
Proof. intros I Hx. rewrite (pref_ok 0%Z Z.add zsum_laws t _ I x Z.add_comm) by (rewrite tally_length; exact Hx). rewrite tally_sum by exact Hx. reflexivity. Qed.
Lemma bag_remove n t bag bag' x : FInv 0%Z Z.add t (tally n bag) -> x < n -> bag ≡ₚ x :: bag' -> exists t', fw_add Z.add t x (-1)%Z = Ok t' /\ FInv 0%Z Z.add t' (tally n bag').
Proof.
  intros I Hx Hp. destruct (add_ok 0%Z Z.add Z.sub Z.add zsum_laws t _ I x (-1)%Z Z.add_comm ltac:(intros; lia)) as (t' & E & I'). rewrite (tally_insert n bag bag' x (-1)%Z Hx) in I'; [eauto|].
  intros v. rewrite (proj1 (Permutation_count_occ Nat.eq_dec bag (x :: bag')) Hp v). cbn [count_occ]. destruct (Nat.eq_dec x v), (decide (v = x)); lia.
Qed.
Lemma bag_kth n t bag k : FInv 0%Z Z.add t (tally n bag) -> (Z.of_nat n < 2 ^ 64)%Z -> Forall (fun y => y < n) bag -> NoDup bag -> k < length bag ->
  exists x, fw_partition_point 0%Z Z.add t (fun q => (q <=? Z.of_nat k)%Z) = Ok x /\ x ∈ bag /\ below x bag = k.
Proof.
  intros I HZ Hb N Hk. assert (Hn : 0 < n) by (destruct bag as [|y bag]; [cbn in Hk; lia|]; inversion Hb; subst; lia).
  destruct (partition_point_ok 0%Z Z.add zsum_laws t _ I (fun c => (c <=? Z.of_nat k)%Z)) as (r & E & Hr & Hlo & Hhi); [rewrite tally_length; exact Hn|rewrite tally_length; exact HZ|].
  rewrite tally_length in Hr, Hhi. exists r. split; [exact E|].
  assert (H1 : below r bag <= k). { destruct r as [|r]; [rewrite below_none; [lia|apply Forall_forall; lia]|]. specialize (Hlo ltac:(lia)). rewrite tally_sum in Hlo by lia. apply Z.leb_le in Hlo. lia. }
  destruct (decide (r < n)) as [Hrn|Hrn]; [|assert (r = n) by lia; subst r; rewrite (below_all n bag Hb) in H1; lia].
  specialize (Hhi Hrn). rewrite tally_sum in Hhi by lia. apply Z.leb_gt in Hhi. rewrite Nat.add_1_r, below_S in Hhi. assert (Hc : 0 < count_occ Nat.eq_dec bag r) by lia.
  split; [apply elem_of_list_In, (count_occ_In Nat.eq_dec); lia|]. pose proof (proj1 (NoDup_count_occ Nat.eq_dec bag) (proj1 (NoDup_ListNoDup bag) N) r). lia.
Qed.
Lemma all_ones_ok n : exists t, all_ones n = Ok t /\ FInv 0%Z Z.add t (tally n (seq 0 n)).
Proof.
  unfold all_ones, range. rewrite Nat.sub_0_r. destruct (rfor_inv (fun done t => FInv 0%Z Z.add t (tally n done)) (seq 0 n) (fun x t => fw_add Z.add t x 1%Z) (fw_new 0%Z n)) as (t & E & I).
  - rewrite tally_nil. apply fw_new_inv. exact zsum_laws.
  - intros done x rest t Hsp I. assert (Hx : x < n) by (assert (x ∈ seq 0 n) as Hx by (rewrite Hsp; apply elem_of_app; right; left); apply elem_of_seq in Hx; lia).
    destruct (add_ok 0%Z Z.add Z.sub Z.add zsum_laws t _ I x 1%Z Z.add_comm ltac:(intros; lia)) as (t' & E & I'). rewrite (tally_insert n done (done ++ [x]) x 1%Z Hx) in I'; [eauto|].
    intros v. rewrite count_occ_app. cbn [count_occ]. destruct (Nat.eq_dec x v), (decide (v = x)); lia.
  - eauto.
Qed.

(** Codes. *)
Lemma lehmer_length p : length (lehmer p) = length p.
Proof. induction p as [|x p IH]; cbn; [reflexivity|lia]. Qed.
Lemma lehmer_valid p : forall i c, lehmer p !! i = Some c -> c + i < length p.
Proof.
  induction p as [|x p IH]; intros i c H; [discriminate|]. destruct i as [|i]; cbn [lehmer lookup list_lookup] in H.
  - injection H as <-. pose proof (filter_length (fun y => y < x) p). cbn [length]. lia.
  - specialize (IH i c H). cbn [length]. lia.
Qed.
Lemma lehmer_inj p : forall q, NoDup p -> p ≡ₚ q -> lehmer p = lehmer q -> p = q.
Proof.
  induction p as [|x p IH]; intros q N P E; [symmetry; apply Permutation_nil; exact P|]. destruct q as [|y q]; [symmetry in P; apply Permutation_nil in P; discriminate|].
  cbn [lehmer] in E. injection E as E1 E2. change (below x p = below y q) in E1. rewrite <- (below_self x p), <- (below_self y q) in E1. rewrite (below_perm x _ _ P) in E1.
  assert (K : forall a b (l : list nat), a ∈ l -> below a l = below b l -> ~ a < b).
  { intros a b l Ha H1 H2. pose proof (below_mono (S a) b l H2) as H. rewrite below_S in H. apply elem_of_list_In, (count_occ_In Nat.eq_dec) in Ha. lia. }
  assert (x = y) as ->. { pose proof (K x y (y :: q)) as K1. pose proof (K y x (y :: q)) as K2. specialize (K2 ltac:(left) (eq_sym E1)). assert (Hx : x ∈ y :: q) by (rewrite <- P; left). specialize (K1 Hx E1). lia. }
  apply NoDup_cons in N as [_ N]. f_equal. apply IH; [exact N|apply (Permutation_cons_inv P)|exact E2].
Qed.
Lemma encode_loop n p : forall t out, FInv 0%Z Z.add t (tally n p) -> Forall (fun x => x < n) p -> exists t',
  rfor p (fun x s => a ← fw_pref 0%Z Z.add s.1 x; t ← fw_add Z.add s.1 x (-1)%Z; Ok (t, s.2 ++ [a])) (t, out) = Ok (t', out ++ map Z.of_nat (lehmer p)).
Proof.
  induction p as [|x p IH]; intros t out I F; [exists t; rewrite app_nil_r; reflexivity|]. inversion F; subst. cbn [rfor fst snd]. rewrite (bag_pref n t (x :: p) x I) by lia. cbn [mbind res_bind].
  destruct (bag_remove n t (x :: p) p x I ltac:(assumption) ltac:(reflexivity)) as (t' & E & I'). rewrite E. cbn [mbind res_bind]. destruct (IH t' (out ++ [Z.of_nat (below x (x :: p))]) I' ltac:(assumption)) as (t2 & E2). exists t2. rewrite E2, below_self, <- app_assoc. reflexivity.
Qed.
Lemma decode_loop n code : (Z.of_nat n < 2 ^ 64)%Z -> forall bag t out, FInv 0%Z Z.add t (tally n bag) -> Forall (fun x => x < n) bag -> NoDup bag -> length bag = length code -> (forall i c, code !! i = Some c -> c + i < length code) -> exists t' p,
  rfor code (fun c s => x ← fw_partition_point 0%Z Z.add s.1 (fun q => (q <=? Z.of_nat c)%Z); t ← fw_add Z.add s.1 x (-1)%Z; Ok (t, s.2 ++ [x])) (t, out) = Ok (t', out ++ p) /\ p ≡ₚ bag /\ lehmer p = code.
Proof.
  intros HZ. induction code as [|c code IH]; intros bag t out I F N L V.
  - exists t, []. rewrite app_nil_r. split; [reflexivity|]. apply length_zero_iff_nil in L as ->. split; reflexivity.
  - cbn [rfor fst snd]. pose proof (V 0 c eq_refl) as Vc. destruct (bag_kth n t bag c I HZ F N ltac:(lia)) as (x & E & Hx & Hc). rewrite E. cbn [mbind res_bind].
    apply elem_of_Permutation in Hx as [bag' Hp]. assert (Hxn : x < n /\ Forall (fun y => y < n) bag') by (rewrite Hp in F; inversion F; auto). destruct Hxn as [Hxn F'].
    destruct (bag_remove n t bag bag' x I Hxn Hp) as (t' & E' & I'). rewrite E'. cbn [mbind res_bind]. assert (N' : NoDup (x :: bag')) by (rewrite <- Hp; exact N). apply NoDup_cons in N' as [_ N'].
    destruct (IH bag' t' (out ++ [x]) I' F' N') as (t2 & p & E2 & P2 & L2); [apply Permutation_length in Hp; cbn in Hp, L; lia|intros i d Hd; specialize (V (S i) d Hd); cbn [length] in V; lia|].
    exists t2, (x :: p). rewrite E2, <- app_assoc. split; [reflexivity|]. split; [rewrite Hp, P2; reflexivity|]. cbn [lehmer]. rewrite L2. f_equal. change (below x p = c). rewrite (below_perm x _ _ P2), <- (below_self x bag'), <- (below_perm x _ _ Hp). exact Hc.
Qed.
Lemma encode_ok n p : arrangement n n p -> perm_encode p = Ok (map Z.of_nat (lehmer p)).
Proof.
  intros A. pose proof A as (L & _ & F). apply arrangement_perm in A. unfold perm_encode. rewrite L. destruct (all_ones_ok n) as (t & E & I). rewrite E. cbn [mbind res_bind]. rewrite <- (tally_perm n _ _ A) in I.
  destruct (encode_loop n p t [] I F) as (t' & E'). rewrite E'. reflexivity.
Qed.
Lemma decode_ok code : (Z.of_nat (length code) < 2 ^ 64)%Z -> (forall i c, code !! i = Some c -> c + i < length code) -> exists p, perm_decode code = Ok p /\ arrangement (length code) (length code) p /\ lehmer p = code.
Proof.
  intros HZ V. unfold perm_decode. set (n := length code). destruct (all_ones_ok n) as (t & E & I). rewrite E. cbn [mbind res_bind].
  destruct (decode_loop n code HZ (seq 0 n) t [] I) as (t' & p & E' & P & L); [apply Forall_forall; intros x Hx; apply elem_of_seq in Hx; lia|apply NoDup_seq|apply seq_length|exact V|].
  exists p. rewrite E'. split; [reflexivity|]. split; [apply arrangement_perm; exact P|exact L].
Qed.
Lemma decode_encode n p : (Z.of_nat n < 2 ^ 64)%Z -> arrangement n n p -> perm_decode (lehmer p) = Ok p.
Proof.
  intros HZ A. pose proof A as (L & N & _). destruct (decode_ok (lehmer p)) as (q & E & Aq & Lq); [rewrite lehmer_length, L; exact HZ|rewrite lehmer_length; apply lehmer_valid|].
  rewrite E. f_equal. rewrite lehmer_length, L in Aq. symmetry. apply lehmer_inj; [exact N| |symmetry; exact Lq]. apply arrangement_perm in A, Aq. rewrite A, Aq. reflexivity.
Qed.

(** The number of permutations before p. *)
Fixpoint rk (p : list nat) : nat := match p with [] => 0 | x :: p => below x p * fact (length p) + rk p end.
Lemma rank_count p : NoDup p -> counts (fun q => q ≡ₚ p /\ lex q p) (rk p).
Proof.
  induction p as [|x p IH]; intros N; cbn [rk].
  - apply counts_0. intros q [_ H]. destruct q; exact H.
  - apply NoDup_cons in N as [Hx N]. apply (counts_or (fun q => exists y q', y ∈ filter (fun y => y < x) p /\ y :: q' ≡ₚ x :: p /\ q = y :: q') (fun q => exists q', (q' ≡ₚ p /\ lex q' p) /\ q = x :: q')).
    + apply (counts_mul (fun y q' => y :: q') (fun y => y ∈ filter (fun y => y < x) p) (fun y q' => y :: q' ≡ₚ x :: p)).
      * exists (filter (fun y => y < x) p). split; [apply NoDup_filter, N|]. split; reflexivity.
      * intros y Hy. apply elem_of_list_filter in Hy as [_ Hy]. assert (Hy' : y ∈ x :: p) by (right; exact Hy). apply elem_of_Permutation in Hy' as [A HA]. assert (NA : NoDup (y :: A)) by (rewrite <- HA; constructor; assumption). apply NoDup_cons in NA as [_ NA].
        eapply counts_ext; [|apply (perms_count (length p) A NA)].
        -- intros w. cbn beta. rewrite HA. split; [intros ->; reflexivity|apply Permutation_cons_inv].
        -- apply Permutation_length in HA. cbn in HA. lia.
      * intros a b a' b' _ _ _ _ E. split; congruence.
      * intros q. reflexivity.
    + apply (counts_image (cons x) (fun q => q ≡ₚ p /\ lex q p)); [apply cons_inj|apply IH, N|reflexivity].
    + intros q (y & q' & Hy & _ & ->) (q2 & _ & E). injection E as -> _. apply elem_of_list_filter in Hy as [Hy _]. lia.
    + intros q. split.
      * intros [P H]. destruct q as [|y q]; [destruct H|]. cbn [lex] in H. destruct H as [H|[-> H]].
        -- left. exists y, q. split; [|split; [exact P|reflexivity]]. apply elem_of_list_filter. split; [exact H|]. assert (Hy : y ∈ x :: p) by (rewrite <- P; left). apply elem_of_cons in Hy as [->|Hy]; [lia|exact Hy].
        -- right. exists q. split; [split; [apply (Permutation_cons_inv P)|exact H]|reflexivity].
      * intros [(y & q' & Hy & P & ->)|(q' & [P H] & ->)]; [apply elem_of_list_filter in Hy as [Hy _]; split; [exact P|left; exact Hy]|split; [rewrite P; reflexivity|right; split; [reflexivity|exact H]]].
Qed.

From Verif Require Import ModIntProof FactorialProof.
Open Scope Z_scope.
Section Run.
  Context (p : Z) (hint : bool) (N : nat) (f : factorial) (Hp : prime p) (Hp31 : p <= 2 ^ 31) (HN : Z.of_nat N < p).
  Notation c := (static_ctx p hint).
  Context (Pm : forall n k, (k <= n <= N)%nat -> perm c f n k = Ok (Z.of_nat (falling n k) mod p)).
  Let P2 : 2 <= p := prime_ge_2 p Hp.
  Lemma falling_full k : falling k k = fact k.
  Proof. pose proof (falling_fact k k ltac:(lia)) as H. rewrite Nat.sub_diag in H. change (fact 0) with 1%nat in H. rewrite Nat.mul_1_r in H. exact H. Qed.
  Lemma rank_loop n q : forall t r, FInv 0 Z.add t (tally n q) -> Forall (fun x => x < n)%nat q -> (length q <= N + 1)%nat -> exists t',
    rfor q (fun x s =>
      k ← nsub s.1.2 1;
      a ← fw_pref 0 Z.add s.1.1 x;
      t ← fw_add Z.add s.1.1 x (-1);
      a ← mi_new (mc_m c) i64 a;
      g ← perm c f k k;
      a ← mc_mul c a g;
      r ← mi_add (mc_m c) s.2 a;
      Ok (t, k, r)) (t, length q, r mod p) = Ok (t', 0%nat, (r + Z.of_nat (rk q)) mod p).
  Proof.
    induction q as [|x q IH]; intros t r I F L; [exists t; cbn [rfor rk length]; rewrite Z.add_0_r; reflexivity|]. inversion F; subst. cbn [rfor fst snd length] in *. assert (Es : nsub (S (length q)) 1 = Ok (length q)) by (unfold nsub; cbn; rewrite ?Nat.sub_0_r; reflexivity). rewrite Es. cbn [mbind res_bind].
    rewrite (bag_pref n t (x :: q) x I) by lia. cbn [mbind res_bind]. destruct (bag_remove n t (x :: q) q x I ltac:(assumption) ltac:(reflexivity)) as (t' & E & I'). rewrite E. cbn [mbind res_bind]. rewrite below_self. pose proof (below_le x q) as B.
    change (mc_m c) with p. rewrite (new_ok i64 _ p ltac:(unfold prim_types; rewrite !elem_of_cons; auto 20)) by (try lia; unfold in_ty; cbn; lia). cbn [mbind res_bind].
    rewrite Pm by lia. cbn [mbind res_bind]. rewrite (mul_res p hint) by assumption. cbn [mbind res_bind]. rewrite add_ok by (lia || apply Z.mod_pos_bound; lia). cbn [mbind res_bind]. rewrite <- Z.add_mod, falling_full by lia.
    destruct (IH t' (r + Z.of_nat (below x q) * Z.of_nat (fact (length q))) I' ltac:(assumption) ltac:(lia)) as (t2 & E2). exists t2. change (mc_m c) with p in E2. rewrite E2. cbn [rk]. rewrite Nat2Z.inj_add, Nat2Z.inj_mul, Z.add_assoc. reflexivity.
  Qed.
  Lemma rank_ok n q : arrangement n n q -> (n <= N + 1)%nat -> exists K, counts (fun q' => arrangement n n q' /\ lex q' q) K /\ perm_rank c f q = Ok (Z.of_nat K mod p).
  Proof.
    intros A Hn. pose proof A as (L & ND & F). exists (rk q). apply arrangement_perm in A. split.
    - eapply counts_ext; [|apply (rank_count q ND)]. intros q'. cbn beta. rewrite arrangement_perm. split; intros [H1 H2]; (split; [|exact H2]); [rewrite H1; exact A|rewrite H1; symmetry; exact A].
    - unfold perm_rank. rewrite L at 1. destruct (all_ones_ok n) as (t & E & I). rewrite E. cbn [mbind res_bind]. rewrite <- (tally_perm n _ _ A) in I. rewrite (zero_ok p hint) by assumption. cbn [mbind res_bind].
      destruct (rank_loop n q t 0 I F ltac:(lia)) as (t' & E'). rewrite E'. reflexivity.
  Qed.
End Run.
Close Scope Z_scope.
