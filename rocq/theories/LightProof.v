From Verif Require Import Prelude UtilModel UtilProof ArraySpec SegtreeModel SegtreeSpec SegtreeProof SpanSpec SpanProof LightModel LightSpec.
Close Scope Z_scope.

Lemma add_laws : monoid_laws 0 Nat.add.
Proof. split; intros; lia. Qed.
Lemma mprod_sum l : mprod 0 Nat.add l = sum_list l.
Proof. induction l as [|x l IH]; [reflexivity|]. change (x + mprod 0 Nat.add l = x + sum_list l). rewrite IH. reflexivity. Qed.
Lemma sum_mono (v : list nat) l m r : l <= m <= r -> sum_list (slice v l m) <= sum_list (slice v l r).
Proof. intros H. rewrite <- (slice_app v l m r H), sum_list_with_app. lia. Qed.
Lemma turn_light v k t l : Inv 0 Nat.add t v -> l < length v -> exists r, st_max_right 0 Nat.add t l (fun y => y <=? k) = Ok r /\ l <= r <= length v /\ forall q, light_section k v l q <-> l < q <= r.
Proof.
  intros I Hl. pose proof (inv_n _ _ _ _ I) as Hn. destruct (max_right_ok 0 Nat.add add_laws t v I l (fun y => y <=? k) ltac:(lia) ltac:(apply Nat.leb_le; lia)) as (r & E & (R1 & R2 & R3)).
  rewrite mprod_sum in *. apply Nat.leb_le in R2. exists r. split; [exact E|]. split; [exact R1|]. intros q. unfold light_section. split.
  - intros [Hq Hs]. split; [lia|]. destruct (decide (q <= r)) as [|Hqr]; [assumption|]. exfalso. specialize (R3 ltac:(lia)). apply Nat.leb_gt in R3. pose proof (sum_mono v l (r + 1) q ltac:(lia)). lia.
  - intros Hq. split; [lia|]. pose proof (sum_mono v l q r ltac:(lia)). lia.
Qed.
Lemma count_from v k l r : l <= r <= length v -> (forall q, light_section k v l q <-> l < q <= r) -> sumn (S (length v)) (fun q => if decide (light_section k v l q) then 1 else 0) = r - l.
Proof.
  intros Hr H. rewrite (sumn_ext _ _ (ind (S l) (S r))); [rewrite sumn_ind by lia; lia|]. intros q _. destruct (decide (light_section k v l q)) as [Q|Q]; rewrite H in Q; [rewrite ind_in by lia|rewrite ind_out by lia]; reflexivity.
Qed.
Lemma light_ok k v : (Z.of_nat (length v) < 2 ^ 32)%Z -> exists m, light k v = Ok (light_count k v, m) /\ light_longest k v m.
Proof.
  intros HZ. unfold light. destruct (st_from_inv 0 Nat.add v HZ) as (t & -> & I). cbn [mbind res_bind].
  destruct (rfor_range_inv (fun i s => s.1 = sumn i (fun l => sumn (S (length v)) (fun r => if decide (light_section k v l r) then 1 else 0)) /\ (forall l r, l < i -> light_section k v l r -> r - l <= s.2) /\ (s.2 = 0 \/ exists l r, light_section k v l r /\ r - l = s.2)) 0 (length v) (light_turn k t) (0, 0)) as ([tot m] & E & H1 & H2 & H3).
  - lia.
  - cbn [fst snd]. split_and!; [reflexivity|intros; lia|left; reflexivity].
  - intros i [tot m] Hi (H1 & H2 & H3). cbn [fst snd] in *. destruct (turn_light v k t i I ltac:(lia)) as (r & Er & Hr & Hq). unfold light_turn. rewrite Er. cbn [mbind res_bind]. rewrite nsub_ok by lia. cbn [mbind res_bind]. eexists. split; [reflexivity|]. cbn [fst snd]. split_and!.
    + rewrite Nat.add_1_r, H1, <- (count_from v k i r Hr Hq). reflexivity.
    + intros l q Hl Q. destruct (decide (l = i)) as [->|]; [apply Hq in Q; lia|]. specialize (H2 l q ltac:(lia) Q). lia.
    + destruct (decide (r - i <= m)) as [Hm|Hm]; [rewrite Nat.max_l by exact Hm; exact H3|]. right. exists i, r. split; [apply Hq; lia|lia].
  - cbn [fst snd] in *. exists m. unfold range in *. rewrite E. split; [rewrite H1; reflexivity|]. split; [|exact H3]. intros l r Q. apply (H2 l r); [destruct Q; lia|exact Q].
Qed.
