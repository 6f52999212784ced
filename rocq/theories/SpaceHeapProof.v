From Verif Require Import Prelude IntModel HeapModel DijkstraModel DijkstraSpec DijkstraProof SpaceModel.
Open Scope Z_scope.

Section heap.
  Context (B : binheap (reverse (Z * nat))) (content : bh B -> list (reverse (Z * nat))).
  Context (HB : binheap_contract (rev_le pair_le) B content).
  Context (g : wgraph) (s : nat) (Hg : nonneg g).
  Lemma turns_inv st : turns B g s st -> (s < length g)%nat /\ length st.1 = length g /\ exists P, inv B content g s P st.1 st.2 /\ (length (bag B content st.2) + open_deg g P <= 1 + length (concat g))%nat.
  Proof.
    intros H. induction H as [dis E|[dis q] [dis2 q2] _ (Hs & Hd & P & H & Hm) E].
    - unfold vset in E. destruct (decide _) as [Hs|]; [|discriminate]. injection E as <-. rewrite replicate_length in Hs. split; [exact Hs|]. cbn [fst snd]. split; [rewrite insert_length, replicate_length; reflexivity|].
      exists []. split; [apply inv_start; assumption|]. rewrite (bag_start B content HB), open_deg_nil. cbn. lia.
    - split; [exact Hs|]. cbn [fst snd] in *. unfold dijkstra_step in E. pose proof (turn B content HB g s Hg Hs _ _ _ H) as Ht.
      destruct (mh_pop B q) as [[[d u]|] q']; [|discriminate].
      destruct Ht as (Hperm & _ & d' & Hd' & Hstale & Hsettle). rewrite (vget_ok _ _ _ Hd') in E. cbn [mbind res_bind] in E.
      assert (Hlen : length (bag B content q) = S (length (bag B content q'))) by (rewrite (Permutation_length Hperm); reflexivity).
      destruct (decide (Some d = Some d')) as [[= <-]|Hne].
      2:{ injection E as <- <-. split; [exact Hd|]. exists P. split; [apply Hstale; congruence|lia]. }
      destruct (Hsettle eq_refl) as (HuP & Hshort & es & Hes & J0 & Hnext). rewrite (vget_ok _ _ _ Hes) in E. cbn [mbind res_bind] in E.
      destruct (rfor_inv_p (fun done '(dis1, q1) => inv2 B content g s P d u done dis1 q1 /\ (length (bag B content q1) <= length (bag B content q') + length done)%nat)
        True es (relax B d) (dis, q')) as [[E1 _]|([dis1 q1] & E1 & J & Hlen1)].
      { split; [exact J0|cbn; lia]. }
      { intros done [v c] rest [dis1 q1] Hsplit [J Hl]. assert (Hc : (v, c) ∈ es) by (rewrite Hsplit; apply elem_of_app; right; left).
        destruct (decide ((length g <= v)%nat \/ 2 ^ 64 - 1 < d + c)) as [Hb|Hb].
        { left. split; [eapply relax_panic; eassumption|exact I]. }
        right. destruct (relax_ok B content HB g s Hg Hs P d u es done v c dis1 q1 J Hes Hc) as (dis3 & q3 & E2 & J2 & Hl2); [lia..|].
        exists (dis3, q3). split; [exact E2|]. split; [exact J2|]. rewrite app_length. cbn [length]. lia. }
      { rewrite E1 in E. discriminate. }
      rewrite E1 in E. cbn [mbind res_bind] in E. injection E as <- <-. pose proof (open_deg_cons g P u es Hes HuP) as Hdeg. pose proof (Hnext _ _ J) as N. split; [exact (i_len _ _ _ _ _ _ _ N)|]. exists (u :: P). split; [exact N|lia].
  Qed.
End heap.
Close Scope Z_scope.
