From stdpp Require Import relations.
From Verif Require Import Prelude ArraySpec Eff EffSpec IntModel HeapModel HeapSpec DijkstraModel DijkstraSpec DijkstraProof BinHeapModel BinHeapSpec BinHeapProof BinHeapWorkModel BinHeapWorkSpec BinHeapWorkProof BinHeapProps.
Close Scope Z_scope.

Lemma rev_acts {W T} (R : relation W) (cmp : T -> T -> comparison) cmpE : (forall a, acts R (cmp a) (cmpE a)) -> forall a, acts R (rev_cmp cmp a) (rev_cmp_e cmpE a).
Proof. intros H a b. exact (H (rev_get b) (rev_get a)). Qed.

Section Heap.
  Context {W T : Type} (R : relation W) (cmp : T -> T -> comparison) (cmpE : T -> T -> eff W comparison) (HE : forall a, acts R (cmp a) (cmpE a)).
  Let HR := rev_acts R cmp cmpE HE.
  Lemma pushes_spends n : forall xs h, length h + length xs <= n ->
    spends R (length xs * Nat.log2 n) (fun _ => 0) (efor xs (fun x other => push_e (rev_cmp_e cmpE) other (Reverse x)) h) (rfor xs (fun x other => bin_push (rev_cmp cmp) other (Reverse x)) h).
  Proof.
    induction xs as [|x xs IH]; intros h Hn; cbn [efor rfor length] in *; [apply spends_ret; lia|]. eapply (spends_part_bind R (Nat.log2 n) _ (length xs * Nat.log2 n)).
    - eapply spends_weak; [apply (push_spends R _ _ HR)|apply Nat.log2_le_mono; lia|auto].
    - lia.
    - intros h' E. apply IH. destruct (push_ok (rev_cmp cmp) h (Reverse x)) as (h1 & E' & P & _). rewrite E in E'. injection E' as ->. rewrite (Permutation_length P). cbn. lia.
  Qed.
  Lemma step_length h o h' out : bin_step cmp h o = Ok (h', out) -> length h' <= length h + inserted [o].
  Proof.
    intros E. destruct (step_ok cmp h o) as (h1 & out1 & E1 & B & _). rewrite E in E1. injection E1 as <- <-. rewrite <- (map_length rev_get h), <- (map_length rev_get h').
    inversion B; subst; unfold inserted; cbn [sum_list_with]; rewrite ?map_length in *; try lia; repeat match goal with H : _ ≡ₚ _ |- _ => apply Permutation_length in H; cbn in H; rewrite ?app_length, ?map_length in H end; cbn; lia.
  Qed.
  Lemma step_spends n h o : length h + inserted [o] <= n -> spends R (mh_cost n o) (fun _ => 0) (step_e cmpE h o) (bin_step cmp h o).
  Proof.
    intros Hn. unfold inserted in Hn. cbn [sum_list_with] in Hn. destruct o as [x| | | |xs| |]; cbn [step_e bin_step mh_cost]; try (apply spends_ret; lia).
    - eapply spends_part_bind; [apply (push_spends R _ _ HR)| |intros h' _; apply (spends_ret R 0); lia]. rewrite Nat.add_0_r. apply Nat.log2_le_mono. lia.
    - eapply spends_part_bind; [apply (pop_spends R _ _ HR)| |intros [r h'] _; apply (spends_ret R 0); lia]. pose proof (Nat.log2_le_mono (length h - 1) n ltac:(lia)). lia.
    - eapply spends_part_bind; [apply (pushes_spends n xs []); cbn; lia|reflexivity|]. intros other E.
      assert (El : length other = length xs). { destruct (pushes_ok cmp xs []) as (o & E' & P & _). rewrite E in E'. injection E' as <-. rewrite <- (map_length rev_get other), (Permutation_length P). reflexivity. }
      eapply spends_part_bind; [apply (append_spends R _ _ HR)| |intros [r h'] _; apply (spends_ret R 0); cbn; lia]. rewrite El, Nat.add_0_r. apply Nat.max_le_compat; [lia|].
      apply Nat.mul_le_mono; [lia|apply Nat.log2_le_mono; lia].
  Qed.
  Lemma inserted_cons o ops : inserted (o :: ops : list (mh_op T)) = inserted [o] + inserted ops.
  Proof. unfold inserted. cbn [sum_list_with]. lia. Qed.
  Lemma run_spends n ops : forall h, length h + inserted ops <= n -> spends R (sum_list_with (mh_cost n) ops) (fun _ => 0) (erun (step_e cmpE) h ops) (run (bin_step cmp) h ops).
  Proof.
    induction ops as [|o ops IH]; intros h Hn; cbn [erun run sum_list_with]; [apply spends_ret; lia|]. rewrite inserted_cons in Hn.
    eapply spends_part_bind; [apply (step_spends n); lia|reflexivity|]. intros [h1 out] E. apply step_length in E. eapply (spends_part_bind R _ _ 0); [apply IH; lia|lia|]. intros [h2 outs] _. apply spends_ret. lia.
  Qed.
End Heap.

Section Dijkstra.
  Context {W : Type} (R : relation W) (cmp : Z * nat -> Z * nat -> comparison) (cmpE : Z * nat -> Z * nat -> eff W comparison).
  Context (HE : forall a, acts R (cmp a) (cmpE a)) (O : ordered cmp pair_le).
  Context (g : wgraph) (s : nat) (Hg : nonneg g) (Hs : s < length g).
  Let HR := rev_acts R cmp cmpE HE.
  Let B := std_heap (rev_cmp cmp) (rev_le pair_le) (rev_ordered cmp pair_le O).
  Let content : bh B -> list (reverse (Z * nat)) := @proj1_sig _ _.
  Let L := Nat.log2 (length (concat g) + 1).
  Lemma std_contract : binheap_contract (rev_le pair_le) B content /\
    (forall h x, bin_push (rev_cmp cmp) (content h) x = Ok (content (bh_push B h x))) /\
    (forall h, bin_pop (rev_cmp cmp) (content h) = Ok match bh_pop B h with Some (x, h') => (Some x, content h') | None => (None, []) end).
  Proof. destruct (std_contract_ok (rev_cmp cmp) (rev_le pair_le) (rev_ordered cmp pair_le O)) as (H1 & H2 & H3 & _). auto. Qed.
  Lemma bag_length q : length (bag B content q) = length (content q).
  Proof. unfold bag. apply map_length. Qed.

  Let HB := proj1 std_contract.
  Lemma push_sim q x : bin_push (rev_cmp cmp) (content q) (Reverse x) = Ok (content (mh_push B q x)).
  Proof. apply (proj1 (proj2 std_contract)). Qed.
  Lemma push_length q x : length (content (mh_push B q x)) = length (content q) + 1.
  Proof. rewrite <- !bag_length, (Permutation_length (bag_push B content HB q x)). cbn. lia. Qed.
  Lemma pop_sim q : bin_pop (rev_cmp cmp) (content q) = Ok match mh_pop B q with (Some x, q') => (Some (Reverse x), content q') | (None, _) => (None, []) end.
  Proof. rewrite (proj2 (proj2 std_contract)). unfold mh_pop. destruct (bh_pop B q) as [[[x] q']|]; reflexivity. Qed.

  Lemma relax_sim d e dis q dis' q' : length (content q) <= length (concat g) -> relax B d e (dis, q) = Ok (dis', q') ->
    length (content q') <= length (content q) + 1 /\
    spends R (3 * L + 2 * L * length (content q)) (fun st => 2 * L * length st.2) (relax_e cmpE d e (dis, content q)) (Ok (dis', content q')).
  Proof.
    intros Hl E. unfold relax_e, relax in *. destruct e as [v c]. destruct (vget dis v) as [dv| |]; cbn [mbind res_bind] in E; try discriminate.
    destruct (iadd usize d c) as [n| |]; cbn [mbind res_bind] in E; try discriminate.
    assert (Lift : forall X Y c (q : Y -> nat) (a : X) f r, spends R c q (f a) r -> spends R c q (ebind (elift (Ok a)) f) r) by (intros X Y c0 q0 a f r H w; exact (H w)).
    destruct (match dv with None => true | Some x => (n <? x)%Z end) eqn:Eb.
    - destruct (vset dis v (Some n)) as [d1| |] eqn:Ev; cbn [mbind res_bind] in E; try discriminate. assert (E' : dis' = d1 /\ q' = mh_push B q (n, v)) by (split; congruence). destruct E' as [-> ->]. rewrite push_length. split; [lia|]. apply Lift, Lift. rewrite Eb, Ev. apply Lift.
      change (Ok (d1, content (mh_push B q (n, v)))) with (Ok (content (mh_push B q (n, v))) ≫= (fun l => Ok (d1, l))). rewrite <- push_sim.
      apply (spends_bind R _ (fun l => 2 * L * length l)).
      + intros w. pose proof (push_spends R _ _ HR (content q) (Reverse (n, v)) w) as H. rewrite push_sim in H |- *. destruct H as (w' & k & E1 & N & H). exists w', k. split; [exact E1|]. split; [exact N|]. rewrite push_length.
        assert (Nat.log2 (length (content q) + 1) <= L) by (apply Nat.log2_le_mono; lia). nia.
      + intros l _. apply spends_ret. cbn. lia.
    - injection E as <- <-. split; [lia|]. apply Lift, Lift. rewrite Eb. apply spends_ret. cbn. lia.
  Qed.

  Lemma edges_sim P d u es : g !! u = Some es -> (forall v c, (v, c) ∈ es -> v < length g /\ (d + c <= 2 ^ 64 - 1)%Z) -> forall rest es0 dis q, es = es0 ++ rest -> inv2 B content g s P d u es0 dis q ->
    length (content q) + length rest <= length (concat g) + 1 -> exists dis' q', inv2 B content g s P d u es dis' q' /\ length (content q') <= length (content q) + length rest /\
      spends R (3 * L * length rest + 2 * L * length (content q)) (fun st => 2 * L * length st.2) (efor rest (relax_e cmpE d) (dis, content q)) (Ok (dis', content q')).
  Proof.
    intros Hu Hok. induction rest as [|[v c] rest IH]; intros es0 dis q Ees I Hl; cbn [length] in *.
    - exists dis, q. rewrite app_nil_r in Ees. subst es0. split; [exact I|]. split; [lia|]. apply spends_ret. cbn. lia.
    - assert (Hin : (v, c) ∈ es) by (rewrite Ees; apply elem_of_app; right; left). destruct (Hok v c Hin) as [Hv Hc].
      destruct (relax_ok B content HB g s Hg Hs P d u es es0 v c dis q I Hu Hin Hv Hc) as (d1 & q1 & E1 & I1 & _).
      destruct (relax_sim d (v, c) dis q d1 q1 ltac:(lia) E1) as [L1 S1].
      destruct (IH (es0 ++ [(v, c)]) d1 q1 ltac:(rewrite <- app_assoc; exact Ees) I1 ltac:(lia)) as (d2 & q2 & I2 & L2 & S2).
      exists d2, q2. split; [exact I2|]. split; [lia|]. cbn [efor]. change (Ok (d2, content q2)) with (Ok (d1, content q1) ≫= (fun _ => Ok (d2, content q2))).
      apply (spends_bind R _ (fun st => 3 * L * length rest + 2 * L * length st.2)).
      + intros w. destruct (S1 w) as (w' & k & E & N & H). exists w', k. split; [exact E|]. split; [exact N|]. cbn [snd] in *. lia.
      + intros st [= <-]. exact S2.
  Qed.

  Lemma loop_sim : ~ bad g s -> forall fuel P dis q, inv B content g s P dis q -> open_deg g P + length (content q) < fuel -> open_deg g P + length (content q) <= length (concat g) + 1 ->
    exists dis', result g s dis' /\ spends R (3 * L * open_deg g P + 2 * L * length (content q)) (fun _ => 0) (eloop fuel (dijkstra_step_e cmpE g) (dis, content q)) (Ok dis').
  Proof.
    intros Hbad. induction fuel as [|fuel IH]; intros P dis q I Hf Hl; [lia|]. cbn [eloop]. pose proof (turn B content HB g s Hg Hs P dis q I) as T. pose proof (pop_sim q) as Ep.
    assert (Lift : forall X Y c (q : Y -> nat) (a : X) f r, spends R c q (f a) r -> spends R c q (ebind (elift (Ok a)) f) r) by (intros X Y c0 q0 a f r H w; exact (H w)).
    assert (Assoc : forall X Y Z c (m : eff W X) (f : X -> eff W Y) (h : Y -> eff W Z) (q : Z -> nat) r, spends R c q (ebind m (fun x => ebind (f x) h)) r -> spends R c q (ebind (ebind m f) h) r).
    { intros X Y Z c m f h q0 r H w. specialize (H w). unfold ebind in *. destruct (m w) as [[x w']| |]; exact H. }
    assert (Pop : forall X c (f : option (reverse (Z * nat)) * list (reverse (Z * nat)) -> eff W X) (q0 : X -> nat) r, 
      spends R c q0 (f (match mh_pop B q with (Some x, q') => (Some (Reverse x), content q') | (None, _) => (None, []) end)) r ->
      spends R (2 * L + c) q0 (ebind (pop_e (rev_cmp_e cmpE) (content q)) f) r).
    { intros X c f q0 r H. intros w. pose proof (pop_spends R _ _ HR (content q) w) as Hp. rewrite Ep in Hp. destruct Hp as (w1 & k & E & N & Hk). unfold ebind. rewrite E. cbn [mbind res_bind]. specialize (H w1).
      destruct r as [x| |]; [|exact H|exact H]. destruct H as (w2 & k2 & E2 & N2 & Hk2). exists w2, (k + k2). split; [exact E2|]. split; [eapply nsteps_trans; eassumption|].
      assert (Nat.log2 (length (content q) - 1) <= L) by (apply Nat.log2_le_mono; lia). lia. }
    destruct (mh_pop B q) as [[[d u]|] q'] eqn:Eq.
    - destruct T as (Pm & _ & d' & Hd' & Hne & He). assert (Lq : length (content q) = S (length (content q'))) by (rewrite <- !bag_length, (Permutation_length Pm); reflexivity).
      destruct (decide (d = d')) as [<-|Hdd].
      + destruct (He eq_refl) as (HuP & Hsh & es & Hes & I2 & Hfin). pose proof (open_deg_cons g P u es Hes HuP) as Hod.
        destruct (edges_sim P d u es Hes) with (rest := es) (es0 := @nil (nat * Z)) (dis := dis) (q := q') as (d1 & q1 & I3 & L3 & S3); [|reflexivity|exact I2|lia|].
        { intros v c Hin. destruct (Nat.lt_ge_cases v (length g)) as [Hv|Hv]; [|exfalso; apply Hbad; exists u, d, es, v, c; auto]. destruct (Z.le_gt_cases (d + c) (2 ^ 64 - 1)) as [Hc|Hc]; [auto|]. exfalso. apply Hbad. exists u, d, es, v, c. split; [exact Hsh|]. split; [exact Hes|]. split; [exact Hin|]. right. lia. }
        destruct (IH (u :: P) d1 q1 (Hfin d1 q1 I3) ltac:(lia) ltac:(lia)) as (dis' & Hr & S4). exists dis'. split; [exact Hr|].
        unfold dijkstra_step_e at 1. apply Assoc. replace (3 * L * open_deg g P + 2 * L * length (content q)) with (2 * L + (3 * L * open_deg g P + 2 * L * length (content q'))) by (rewrite Lq; lia). apply Pop. cbn beta iota.
        rewrite (vget_ok _ _ _ Hd'). apply Assoc, Lift. rewrite decide_True by reflexivity. apply Assoc. rewrite (vget_ok _ _ _ Hes). apply Lift. apply Assoc.
        change (Ok dis') with (Ok (d1, content q1) ≫= (fun _ => Ok dis')). apply (spends_bind R _ (fun st => 3 * L * open_deg g (u :: P) + 2 * L * length st.2)).
        * intros w. destruct (S3 w) as (w' & k & E & N & H). exists w', k. split; [exact E|]. split; [exact N|]. cbn [snd] in *. rewrite <- Hod. lia.
        * intros st [= <-]. exact S4.
      + destruct (IH P dis q' (Hne Hdd) ltac:(lia) ltac:(lia)) as (dis' & Hr & S4). exists dis'. split; [exact Hr|].
        unfold dijkstra_step_e at 1. apply Assoc. replace (3 * L * open_deg g P + 2 * L * length (content q)) with (2 * L + (3 * L * open_deg g P + 2 * L * length (content q'))) by (rewrite Lq; lia). apply Pop. cbn beta iota.
        rewrite (vget_ok _ _ _ Hd'). apply Assoc, Lift. rewrite decide_False by congruence. exact S4.
    - exists dis. destruct (inv_final B content g s Hg Hs P dis q I T) as [Hr _]. split; [exact Hr|]. unfold dijkstra_step_e at 1. apply Assoc.
      assert (E0 : content q = []) by (apply (f_equal length) in T; rewrite bag_length in T; apply nil_length_inv; exact T). unfold pop_e. rewrite E0. cbn [rev]. intros w. exists w, 0. split; [reflexivity|]. split; [constructor|lia].
  Qed.

  Lemma dijkstra_spends : ~ bad g s -> exists dis, result g s dis /\ spends R (3 * (length (concat g) + 1) * L) (fun _ => 0) (dijkstra_e cmpE g s) (Ok dis).
  Proof.
    intros Hbad. destruct (loop_sim Hbad (length (concat g) + 2) [] _ _ (inv_start B content HB g s Hs)) as (dis & Hr & S1).
    - rewrite open_deg_nil, push_length. unfold content. cbn. lia.
    - rewrite open_deg_nil, push_length. unfold content. cbn. lia.
    - exists dis. split; [exact Hr|]. unfold dijkstra_e. intros w. pose proof (push_spends R _ _ HR [] (Reverse (0%Z, s)) w) as Hp. change (@nil (reverse (Z * nat))) with (content (mh_new B)) in Hp. rewrite push_sim in Hp.
      destruct Hp as (w1 & k & E & N & Hk). cbn in Hk. unfold ebind, elift. change (@nil (reverse (Z * nat))) with (content (mh_new B)). rewrite E. cbn [mbind res_bind]. rewrite vset_ok by (rewrite replicate_length; exact Hs). cbn [mbind res_bind].
      destruct (S1 w1) as (w2 & k2 & E2 & N2 & Hk2). exists w2, (k + k2). split; [exact E2|]. split; [eapply nsteps_trans; eassumption|]. rewrite open_deg_nil, push_length in Hk2. unfold content in Hk2. cbn [mh_new proj1_sig] in Hk2. cbn in Hk2 |- *. lia.
  Qed.
End Dijkstra.
