(** Release build: AhoCorasick, lg, and the functions that call lg (C100). *)
From Verif Require Import Prelude IntModel UtilModel UtilProps AhoSpec AhoModel AhoProps FenwickModel SparseModel LiftModel AhoReleaseSpec AhoReleaseModel AhoReleaseProof.
Close Scope Z_scope.

(** C100: in a release build every insert of a non-empty string of letters works, where the letters are the N bytes from OFFSET on,
    going on at 0 after 255; find_all, find_cnt and find answer as in C17-C19 for texts of letters and panic for other texts. *)
Theorem C100_aho : forall off N n ins, off < 256 -> Forall (fun x => bytes x.1) ins -> Forall (fun x => x.1 <> [] /\ letters off N x.1) ins ->
  exists a, aho_of_release off N n ins = Ok a /\
    (forall text, bytes text -> letters off N text ->
       let listed := concat (map (fun i => matches ins (take (i + 1) text)) (seq 0 (length text))) in
       (exists r, aho_find_all_release off a text = Ok r /\ length r = length text /\
          forall i, i < length text -> r !! i = Some (matches ins (take (i + 1) text))) /\
       (Forall (fun k => k < n) listed ->
          exists r, aho_find_cnt_release off a text = Ok r /\ length r = n /\ forall k, k < n -> r !! k = Some (length (filter (fun j => j = k) listed))) /\
       (~ Forall (fun k => k < n) listed -> aho_find_cnt_release off a text = Panic) /\
       (exists r, aho_find_release off a text = Ok r /\ length r = length text /\
          forall i, i < length text -> exists s, longest_live ins (take (i + 1) text) s /\ r !! i = Some (last_index ins s))) /\
    (forall text, bytes text -> ~ letters off N text ->
       aho_find_all_release off a text = Panic /\ aho_find_cnt_release off a text = Panic /\ aho_find_release off a text = Panic).
Proof.
  intros off N n ins Ho Hb Hg. rewrite (insertable_tr off N Ho ins Hb) in Hg.
  destruct (C17_find_all 0 N n _ Hg) as (a & E & A1 & A2). destruct (C18_find_cnt 0 N n _ Hg) as (a' & E' & B1 & B2). rewrite E in E'. injection E' as <-.
  destruct (C19_find_partial 0 N n _ Hg) as (a' & E' & D1 & D2). rewrite E in E'. injection E' as <-.
  exists a. rewrite of_tr. split; [exact E|]. split.
  - intros text Ht Hl listed. rewrite (letters_tr off N Ho text Ht) in Hl. rewrite find_all_tr, find_cnt_tr, find_tr.
    specialize (A1 _ Hl). specialize (B1 _ Hl). specialize (D1 _ Hl). rewrite map_length in A1, B1, D1. cbn zeta in B1.
    assert (forall i, matches (tr_ins off ins) (take (i + 1) (map (letter_release off) text)) = matches ins (take (i + 1) text)) as Hm.
    { intros i. rewrite take_tr. apply matches_tr; [exact Ho|exact Hb|apply bytes_take; exact Ht]. }
    split; [|split; [|split]].
    + destruct A1 as (r & R1 & R2 & R3). exists r. split; [exact R1|]. split; [exact R2|]. intros i Hi. rewrite (R3 i Hi), Hm. reflexivity.
    + destruct B1 as [B1 _]. rewrite (map_ext _ (fun i => matches ins (take (i + 1) text)) Hm) in B1. exact B1.
    + destruct B1 as [_ B1]. rewrite (map_ext _ (fun i => matches ins (take (i + 1) text)) Hm) in B1. exact B1.
    + destruct D1 as (r & R1 & R2 & R3). exists r. split; [exact R1|]. split; [exact R2|]. intros i Hi. destruct (R3 i Hi) as (s' & S1 & S2). rewrite take_tr in S1.
      apply longest_live_tr in S1 as (s & -> & Hs & S1); [|exact Ho|exact Hb|apply bytes_take; exact Ht]. exists s. split; [exact S1|]. rewrite S2. f_equal. apply last_index_tr; assumption.
  - intros text Ht Hl. rewrite (letters_tr off N Ho text Ht) in Hl. rewrite find_all_tr, find_cnt_tr, find_tr. auto.
Qed.
Print Assumptions C100_aho.

(** C100: an insert of an empty string or of a string with another byte panics; from is new, inserts and build. *)
Theorem C100_aho_panics : forall off N n ins, off < 256 -> Forall (fun x => bytes x.1) ins -> ~ Forall (fun x => x.1 <> [] /\ letters off N x.1) ins ->
  aho_of_release off N n ins = Panic.
Proof. intros off N n ins Ho Hb Hg. rewrite (insertable_tr off N Ho ins Hb) in Hg. rewrite of_tr. apply C17_insert_panics. exact Hg. Qed.
Print Assumptions C100_aho_panics.
Theorem C100_aho_from : forall off N patterns, aho_from_release off N patterns = aho_of_release off N (length patterns) (numbered patterns).
Proof. exact from_tr. Qed.
Print Assumptions C100_aho_from.

(** C100: if the letters end at 255 or before, they are those of the dev build. *)
Theorem C100_aho_dev : forall off N s, off + N <= 256 -> bytes s -> (letters off N s <-> in_alphabet off N s).
Proof.
  intros off N s H Hs. unfold letters, in_alphabet. rewrite !Forall_forall. split; intros Hl c Hc.
  - destruct (Hl c Hc) as (k & Hk & ->). rewrite Nat.mod_small by lia. lia.
  - specialize (Hl c Hc). exists (c - off). split; [lia|]. rewrite Nat.mod_small by lia. lia.
Qed.
Print Assumptions C100_aho_dev.

(** C100: lg and ceil_lg are those of the dev build, except that lg(0) is 2^32 - 1. *)
Lemma lg_release_ok i k : lg i = Ok k -> (0 <= i < 2 ^ 64)%Z -> lg_release i = k.
Proof.
  intros E Hi. assert (0 < i)%Z as Hp. { destruct (Z.eq_dec i 0) as [->|]; [discriminate E|lia]. }
  unfold lg, lg_release, csub in *. destruct (leading_zeros 64 i <=? 64 - 1)%Z eqn:El; [|discriminate]. injection E as <-. apply Z.leb_le in El.
  assert (0 <= leading_zeros 64 i)%Z as H0. { unfold leading_zeros. destruct (Z.eqb_spec i 0); [lia|]. pose proof (Z.log2_lt_pow2 i 64). lia. }
  unfold wrap. cbn [it_min it_bits u32 it_signed]. rewrite !Z.sub_0_r, !Z.add_0_r. rewrite (Z.mod_small (64 - 1)) by lia. apply Z.mod_small. lia.
Qed.
Theorem C100_lg : forall i, (0 <= i < 2 ^ 64)%Z ->
  (forall k, lg i = Ok k -> lg_release i = k) /\ (lg i = Panic <-> i = 0%Z) /\ lg_release 0 = (2 ^ 32 - 1)%Z.
Proof.
  intros i Hi. split; [intros k E; apply lg_release_ok; assumption|]. split; [|reflexivity]. split; [|intros ->; reflexivity].
  intros E. destruct (Z.eq_dec i 0) as [|Hne]; [assumption|]. destruct (C49_lg i ltac:(lia)) as (k & E' & _). congruence.
Qed.
Print Assumptions C100_lg.
Theorem C100_ceil_lg : forall n, (0 <= n < 2 ^ 32)%Z -> ceil_lg n = Ok (ceil_lg_release n).
Proof.
  intros n Hn. unfold ceil_lg, ceil_lg_release, csub, saturating_sub.
  assert (0 <= leading_zeros 32 (Z.max 0 (n - 1)) <= 32)%Z as H. { unfold leading_zeros. destruct (Z.eqb_spec (Z.max 0 (n - 1)) 0); [lia|]. pose proof (Z.log2_lt_pow2 (Z.max 0 (n - 1)) 32). pose proof (Z.log2_nonneg (Z.max 0 (n - 1))). lia. }
  rewrite (proj2 (Z.leb_le _ _)) by lia. f_equal. unfold wrap. cbn [it_min it_bits u32 it_signed]. rewrite Z.sub_0_r, Z.add_0_r. symmetry. apply Z.mod_small. lia.
Qed.
Print Assumptions C100_ceil_lg.

(** *** The functions that call lg *)
Lemma rfor_keep {A S} (l : list A) (b : A -> S -> res S) (I : S -> Prop) s : I s -> (forall x s, I s -> b x s = Ok s) -> rfor l b s = Ok s.
Proof. intros Hs H. induction l as [|x l IH]; cbn [rfor]; [reflexivity|]. rewrite H by exact Hs. exact IH. Qed.
Lemma rfor_in {A S} (l : list A) (b b' : A -> S -> res S) s : (forall x s, x ∈ l -> b x s = b' x s) -> rfor l b s = rfor l b' s.
Proof.
  revert s. induction l as [|x l IH]; intros s H; cbn [rfor]; [reflexivity|]. rewrite H by left. destruct (b' x s); cbn [mbind res_bind]; [|reflexivity|reflexivity]. apply IH. intros y s0 Hy. apply H. right. exact Hy.
Qed.
Lemma shl_small i : i < 64 -> shl_one_release i = 2 ^ i.
Proof. intros H. unfold shl_one_release. rewrite Nat.mod_small by exact H. reflexivity. Qed.
Lemma shl_pos i : 0 < shl_one_release i.
Proof. unfold shl_one_release. apply Nat.neq_0_lt_0, Nat.pow_nonzero. lia. Qed.
Lemma usub_ok a b : b <= a -> (Z.of_nat a < 2 ^ 64)%Z -> usub_release a b = a - b.
Proof.
  intros H Ha. unfold usub_release, wrap. cbn [it_min it_bits usize u64 it_signed]. rewrite Z.sub_0_r, Z.add_0_r, Z.mod_small by lia. lia.
Qed.
Lemma lg_nat n : 0 < n -> (Z.of_nat n < 2 ^ 64)%Z -> exists k, lg (Z.of_nat n) = Ok (Z.of_nat k) /\ Z.to_nat (lg_release (Z.of_nat n)) = k /\ k < 64 /\ 2 ^ k <= n.
Proof.
  intros Hp Hn. destruct (C49_lg (Z.of_nat n) ltac:(lia)) as (k & E & Hk & Hl). exists (Z.to_nat k). rewrite (lg_release_ok _ k E) by lia. rewrite Z2Nat.id by lia. split; [exact E|]. split; [reflexivity|]. split; [lia|].
  apply Nat2Z.inj_le. rewrite Nat2Z.inj_pow, Z2Nat.id by lia. lia.
Qed.

(** C100: partition_point of a release build returns 0 on an empty tree (after 2^32 turns of its loop), where the dev build panics;
    on other trees it is that of the dev build. *)
Theorem C100_partition_point : forall T (zero : T) add t pred, (Z.of_nat (fw_n t) < 2 ^ 64)%Z ->
  (fw_n t = 0 -> fw_partition_point zero add t pred = Panic /\ fw_partition_point_release zero add t pred = Ok 0) /\
  (0 < fw_n t -> fw_partition_point_release zero add t pred = fw_partition_point zero add t pred).
Proof.
  intros T zero add t pred Hn. unfold fw_partition_point, fw_partition_point_release. split.
  - intros E. rewrite E. generalize (rev (range_incl 0 (Z.to_nat (lg_release (Z.of_nat 0))))) as l. intros l. split; [change (lg (Z.of_nat 0)) with (@Panic Z); reflexivity|]. rewrite (rfor_keep _ _ (fun s => s = (0, zero)) (0, zero)); [reflexivity|reflexivity|]. intros i s ->. pose proof (shl_pos i). destruct (Nat.leb_spec (0 + shl_one_release i) 0); [lia|reflexivity].
  - intros Hp. destruct (lg_nat (fw_n t) Hp Hn) as (k & E & Er & Hk & _). rewrite E, Er. cbn [mbind res_bind]. rewrite Nat2Z.id. erewrite rfor_in; [reflexivity|].
    intros i [pos sum] Hi. apply elem_of_list_In, in_rev, elem_of_list_In, elem_of_seq in Hi. rewrite shl_small by lia. reflexivity.
Qed.
Print Assumptions C100_partition_point.

(** C100: a sparse table and the tables of BinaryLifting are those of the dev build: they panic for no elements. *)
Theorem C100_sparse : forall T (v : list T) init op, (Z.of_nat (length v) < 2 ^ 64)%Z ->
  sp_from_release v init op = sp_from v init op /\
  forall data l r, (Z.of_nat r < 2 ^ 64)%Z -> sp_get_release op data l r = sp_get op data l r.
Proof.
  intros T v init op Hn. split.
  - destruct (Nat.eq_0_gt_0_cases (length v)) as [E|Hp].
    + destruct v; [|discriminate]. clear. unfold sp_from, lgn. change (lg (Z.of_nat (length []))) with (@Panic Z). cbn [mbind res_bind].
      unfold sp_from_release. cbn [length]. set (cnt := Z.to_nat (lg_release (Z.of_nat 0)) + 1).
      assert (exists m, cnt = S (S m)) as [m Em]. { exists (Z.to_nat (2 ^ 32 - 2)). subst cnt. change (lg_release (Z.of_nat 0)) with (2 ^ 32 - 1)%Z. lia. }
      clearbody cnt. subst cnt. rewrite vset_ok by (rewrite replicate_length; lia). cbn [mbind res_bind replicate list_insert]. change (range 1 (S (S m))) with (1 :: seq 2 m). cbn [rfor].
      unfold sp_row_release. set (b := usub_release 0 (shl_one_release 1)). change (range_incl 0 b) with (0 :: seq 1 b). cbn [rfor]. reflexivity.
    + destruct (lg_nat (length v) Hp Hn) as (k & E & Er & Hk & H2). unfold sp_from_release, sp_from, lgn. rewrite E, Er. cbn [mbind res_bind]. rewrite Nat2Z.id.
      destruct (vset (replicate (k + 1) (replicate (length v) init)) 0 v) as [data| |]; cbn [mbind res_bind]; [|reflexivity|reflexivity].
      apply rfor_in. intros c d Hc. apply elem_of_seq in Hc. unfold sp_row_release, sp_row. assert (2 ^ c <= 2 ^ k) as Hck by (apply Nat.pow_le_mono_r; lia).
      rewrite !shl_small by lia. rewrite usub_ok by lia. unfold nsub. rewrite (proj2 (Nat.leb_le _ _)) by lia. cbn [mbind res_bind]. reflexivity.
  - intros data l r Hr. unfold sp_get_release, sp_get, lgn. destruct (Nat.ltb_spec l r) as [Hlr|Hlr]; cbn [rassert mbind res_bind]; [|reflexivity].
    rewrite (usub_ok r l) by lia. destruct (lg_nat (r - l) ltac:(lia) ltac:(lia)) as (k & E & Er & Hk & H2). rewrite E, Er. cbn [mbind res_bind]. rewrite Nat2Z.id.
    rewrite shl_small by exact Hk. rewrite (usub_ok r (2 ^ k)) by lia. unfold nsub. rewrite (proj2 (Nat.leb_le _ _)) by lia. reflexivity.
Qed.
Print Assumptions C100_sparse.

Theorem C100_lift : forall g root, (Z.of_nat (length g) < 2 ^ 64)%Z -> bl_from_release g root = bl_from g root.
Proof.
  intros g root Hn. unfold bl_from_release, bl_from. destruct (Nat.eq_0_gt_0_cases (length g)) as [E|Hp].
  - rewrite E. change (lg (Z.of_nat 0)) with (@Panic Z). cbn [mbind res_bind]. generalize (Z.to_nat (lg_release (Z.of_nat 0)) + 1) as lv. intros lv. reflexivity.
  - destruct (lg_nat (length g) Hp Hn) as (k & E & Er & Hk & _). rewrite E, Er. cbn [mbind res_bind]. rewrite Nat2Z.id. reflexivity.
Qed.
Print Assumptions C100_lift.

(** OFFSET = 'a' = 97 and N = 200: the letters are the bytes 97, ..., 255, 0, ..., 40; the dev build rejects the byte 32. *)
Example C100_nonvacuous :
  (a ← aho_of_release 97 200 2 [([104; 32], 0); ([32], 1)]; aho_find_all_release 97 a [104; 32; 32]) = Ok [[]; [0; 1]; [1]] /\
  aho_of 97 200 2 [([104; 32], 0); ([32], 1)] = Panic /\ letters 97 200 [104; 32] /\
  (a ← aho_of_release 97 26 1 [([97], 0)]; aho_find_release 97 a [97; 32]) = Panic /\ ~ letters 97 26 [97; 32].
Proof.
  split; [vm_compute; reflexivity|]. split; [vm_compute; reflexivity|]. split; [repeat constructor; [exists 7|exists 191]; split; [lia|reflexivity|lia|reflexivity]|].
  split; [vm_compute; reflexivity|]. intros H. apply Forall_cons in H as [_ H]. apply Forall_cons in H as [(k & Hk & E) _]. rewrite Nat.mod_small in E by lia. lia.
Qed.
