(** The edges kept when edges are linked in the order of their weights. *)
From Coq Require Import Sorting.Sorted.
From stdpp Require Import relations.
From Verif Require Import Prelude ArraySpec UnionFindModel UnionFindProof UnionFindSpec UnionFindRefProps LinkModel LinkSpec LinkProof.

Lemma chosen_cons {A} (x : A) es b bs : chosen (x :: es) (b :: bs) = if b then x :: chosen es bs else chosen es bs.
Proof. unfold chosen. cbn [zip zip_with]. destruct b; [rewrite filter_cons_True by reflexivity|rewrite filter_cons_False by discriminate]; reflexivity. Qed.
Lemma chosen_length {A} (es : list A) : forall bs, length bs = length es -> length (chosen es bs) = trues bs.
Proof.
  induction es as [|x es IH]; intros [|b bs] H; try discriminate; [reflexivity|]. rewrite chosen_cons, trues_cons. injection H as H. specialize (IH bs H).
  destruct b; cbn [length]; lia.
Qed.
Lemma chosen_split {A} (es : list A) k : forall bs, length bs = length es -> chosen es bs = chosen (take k es) (take k bs) ++ chosen (drop k es) (drop k bs).
Proof.
  revert k. induction es as [|x es IH]; intros [|k] [|b bs] H; try discriminate; try reflexivity.
  cbn [take drop]. rewrite !chosen_cons. injection H as H. rewrite (IH k bs H). destruct b; reflexivity.
Qed.
Lemma chosen_sublist {A} (es : list A) : forall bs, chosen es bs `sublist_of` es.
Proof. induction es as [|x es IH]; intros [|b bs]; try (cbn; apply sublist_nil_l). rewrite chosen_cons. destruct b; [apply sublist_skip|apply sublist_cons]; apply IH. Qed.
Lemma sublist_In_any {A} (l l' : list A) x : l `sublist_of` l' -> x ∈ l -> x ∈ l'.
Proof. intros H. intros Hx. eapply elem_of_submseteq; [exact Hx|]. apply sublist_submseteq. exact H. Qed.
Lemma sublist_chosen {A} (T es : list A) : T `sublist_of` es -> exists ts, length ts = length es /\ chosen es ts = T.
Proof.
  induction 1 as [|x l1 l2 _ (ts & Hl & <-)|x l1 l2 _ (ts & Hl & <-)]; [exists []; auto|exists (true :: ts)|exists (false :: ts)]; rewrite chosen_cons; cbn; auto.
Qed.
Lemma chosen_map {A B} (f : A -> B) (es : list A) : forall bs, map f (chosen es bs) = chosen (map f es) bs.
Proof. induction es as [|x es IH]; intros [|b bs]; try reflexivity. cbn [map]. rewrite !chosen_cons. destruct b; cbn [map]; rewrite IH; reflexivity. Qed.

(** Moving selections towards the end of a sorted list makes them heavier. *)
Lemma weight_cons x es : weight (x :: es) = (x.2 + weight es)%Z.
Proof. reflexivity. Qed.
Lemma select_heavier : forall (es : list (nat * nat * Z)) bs ts c, StronglySorted (fun x y => x.2 <= y.2)%Z es -> Forall (fun x => c <= x.2)%Z es ->
  length bs = length es -> length ts = length es -> (forall k, trues (drop k bs) <= trues (drop k ts)) ->
  (weight (chosen es bs) + c * (Z.of_nat (trues ts) - Z.of_nat (trues bs)) <= weight (chosen es ts))%Z.
Proof.
  induction es as [|x es IH]; intros [|b bs] [|t ts] c Hs Hc Hb Ht Hk; try discriminate; [cbn; lia|].
  apply StronglySorted_inv in Hs as [Hs Hx]. apply Forall_cons in Hc as [Hc _]. injection Hb as Hb. injection Ht as Ht.
  specialize (IH bs ts x.2 Hs Hx Hb Ht (fun k => Hk (S k))). pose proof (Hk 0) as H0. cbn [drop] in H0. rewrite !trues_cons in *. rewrite !chosen_cons.
  destruct b, t; rewrite ?weight_cons; nia.
Qed.

Section kruskal.
  Context (n : nat) (Hn : (Z.of_nat n < 2 ^ 64)%Z).
  Notation ok := (Forall (fun p : nat * nat => p.1 < n /\ p.2 < n)).

  (** Kept edges connect what all edges connect. *)
  Lemma link_keeps : forall es u es0 F0 lab bs u', linked n u es0 lab -> (forall i j, conn F0 i j <-> conn es0 i j) -> ok es -> run uf_link u es = Ok (u', bs) ->
    forall i j, conn (F0 ++ chosen es bs) i j <-> conn (es0 ++ es) i j.
  Proof.
    induction es as [|[a b] es IH]; intros u es0 F0 lab bs u' H HF F E i j.
    - cbn [run] in E. injection E as _ <-. rewrite !app_nil_r. apply HF.
    - apply Forall_cons in F as [[Ha Hb] F]. cbn [fst snd] in *. destruct (link_ok n Hn u es0 lab a b H Ha Hb) as (u1 & lab1 & t & E1 & H1 & _ & Ht).
      cbn [run] in E. rewrite E1 in E. cbn [mbind res_bind] in E. destruct (run uf_link u1 es) as [[u2 bs2]| |] eqn:E2; cbn [mbind res_bind] in E; try discriminate.
      injection E as <- <-. rewrite chosen_cons.
      assert (es0 ++ (a, b) :: es = (es0 ++ [(a, b)]) ++ es) as -> by (rewrite <- app_assoc; reflexivity). destruct t.
      + assert (F0 ++ (a, b) :: chosen es bs2 = (F0 ++ [(a, b)]) ++ chosen es bs2) as -> by (rewrite <- app_assoc; reflexivity).
        apply (IH u1 _ _ lab1 bs2 u2 H1); [|exact F|exact E2]. intros x y. rewrite !conn_snoc, !HF. reflexivity.
      + apply (IH u1 _ _ lab1 bs2 u2 H1); [|exact F|exact E2]. intros x y. rewrite HF, conn_snoc.
        assert (conn es0 a b) as C. { destruct H as (_ & _ & LL). destruct (lookup_lt_is_Some_2 lab a) as [p Hp]; [rewrite (la_len _ _ _ LL); exact Ha|].
          destruct (lookup_lt_is_Some_2 lab b) as [q Hq]; [rewrite (la_len _ _ _ LL); exact Hb|]. apply (la_conn _ _ _ LL a b p q Hp Hq).
          destruct (decide (p = q)) as [|Hne]; [assumption|]. exfalso. assert (false = true); [|discriminate]. apply Ht. intros C. apply Hne. apply (la_conn _ _ _ LL a b p q Hp Hq). exact C. }
        split; [auto|]. intros [H2|[[H2 H3]|[H2 H3]]]; [exact H2| |]; (eapply conn_trans; [exact H2|]); (eapply conn_trans; [|exact H3]); [exact C|apply conn_sym; exact C].
  Qed.

  (** The number of vertices minus the number of sets. *)
  Lemma link_rank es : ok es -> exists lab, labels n es lab /\ length (reps lab) <= n <= length es + length (reps lab).
  Proof.
    intros F. destruct (link_all n Hn es F) as (u & lab & bs & _ & Hl & (_ & _ & LL) & E). exists lab. split; [exact LL|]. pose proof (trues_le bs). lia.
  Qed.
  Lemma link_rank_app es es' : ok es -> ok es' -> exists lab lab', labels n es lab /\ labels n (es ++ es') lab' /\ length (reps lab) <= length es' + length (reps lab').
  Proof.
    intros F F'. destruct (link_all n Hn es F) as (u & lab & bs & _ & Hl & H & E). destruct (link_run n Hn es' u es lab H F') as (u' & lab' & bs' & _ & Hl' & H' & E').
    exists lab, lab'. split; [apply H|]. split; [apply H'|]. pose proof (trues_le bs'). lia.
  Qed.
  Lemma reps_eq es es' lab lab' : labels n es lab -> labels n es' lab' -> (forall i j, conn es i j <-> conn es' i j) -> length (reps lab') = length (reps lab).
  Proof. intros L L' H. apply Nat.le_antisymm; eapply reps_mono; eauto; intros i j _ _; apply H. Qed.

  (** Answers to the last edges are at most as often true as any connecting selection has edges there. *)
  Lemma suffix_count es ts u bs k : ok es -> length ts = length es -> (forall i j, i < n -> j < n -> conn es i j -> conn (chosen es ts) i j) ->
    uf_link_all n es = Ok (u, bs) -> trues (drop k bs) <= trues (drop k ts).
  Proof.
    intros F Ht HT E. assert (ok (take k es) /\ ok (drop k es)) as [F1 F2] by (apply Forall_app; rewrite take_drop; exact F).
    assert (forall (l : list (nat * nat)) b, ok l -> ok (chosen l b)) as Fc.
    { intros l b Fl. apply Forall_forall. intros p Hp. rewrite Forall_forall in Fl. apply Fl. eapply sublist_In_any; [apply chosen_sublist|exact Hp]. }
    destruct (link_all n Hn (take k es) F1) as (u1 & lab1 & bs1 & E1 & Hl1 & H1 & C1). destruct (link_run n Hn (drop k es) u1 _ lab1 H1 F2) as (u2 & lab2 & bs2 & E2 & Hl2 & H2 & C2).
    assert (bs = bs1 ++ bs2) as Eb.
    { unfold uf_link_all in E, E1. rewrite <- (take_drop k es), run_app, E1 in E. cbn [mbind res_bind] in E. rewrite E2 in E. injection E as _ <-. reflexivity. }
    assert (drop k bs = bs2) as ->.
    { rewrite Eb. rewrite take_length in Hl1. destruct (decide (k <= length es)) as [Hk|Hk].
      - rewrite drop_app_ge by lia. replace (k - length bs1) with 0 by lia. apply drop_0.
      - rewrite drop_length in Hl2. destruct bs2; [|cbn in Hl2; lia]. apply drop_ge. rewrite app_length. cbn. lia. }
    rewrite take_drop in H2. destruct (link_rank_app (chosen (take k es) (take k ts)) (chosen (drop k es) (drop k ts)) (Fc _ _ F1) (Fc _ _ F2)) as (la & lb & La & Lb & Hc).
    rewrite <- chosen_split in Lb by exact Ht. rewrite chosen_length in Hc by (rewrite !drop_length; lia).
    pose proof (reps_mono n _ _ _ _ La (proj2 (proj2 H1))) as M1. pose proof (reps_mono n _ _ _ _ (proj2 (proj2 H2)) Lb) as M2.
    assert (length (reps lab1) <= length (reps la)) as M1'.
    { apply M1. intros i j _ _. apply conn_mono. intros p Hp. eapply sublist_In_any; [apply chosen_sublist|exact Hp]. }
    specialize (M2 HT). lia.
  Qed.
End kruskal.
