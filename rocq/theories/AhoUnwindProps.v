(** C78: AhoCorasick after rejected inserts. *)
From Verif Require Import Prelude UtilModel AhoSpec AhoModel AhoStr AhoTrie AhoBuild AhoProof AhoProps Unwind AhoUnwindModel AhoUnwindSpec AhoUnwindProof.

(** C78: the model with the memory left behind is insert: nobody catching, they are the same. *)
Theorem C78_same_code : forall off N n nodes s i, (a ← strip (insert_uw off N s i nodes); Ok (Aho n a.1)) = aho_insert off N (Aho n nodes) s i.
Proof. exact insert_strip. Qed.
Print Assumptions C78_same_code.

(** C78: after any earlier calls, caught panics included, an insert is rejected exactly for the empty string and for
    strings with a byte outside the alphabet. *)
Theorem C78_rejected : forall off N n ins nodes s i, inserts_caught off N (ah_nodes (aho_new N n)) ins = Ok nodes ->
  exists nodes', insert_uw off N s i nodes = Ok (nodes', if decide (insertable off N (s, i)) then Some tt else None).
Proof.
  intros off N n ins nodes s i E. destruct (caught_ok off N n ins) as (str & nodes0 & E0 & TH & _). rewrite E in E0. injection E0 as <-.
  destruct (decide (insertable off N (s, i))) as [[H1 H2]|H].
  - destruct (insert_ok off N str (Aho n nodes) _ s i TH H1 H2) as (str' & a' & E1 & _). rewrite <- insert_strip in E1.
    destruct (strip (insert_uw off N s i nodes)) as [[nodes' []]| |] eqn:Es; [|discriminate|discriminate]. apply strip_Ok in Es. eauto.
  - destruct (insert_rejected off N str nodes _ s i TH H) as (str' & nodes' & E1 & _). eauto.
Qed.
Print Assumptions C78_rejected.

(** C78: find_all and find_cnt answer, on every text, as if the rejected inserts had never been called. *)
Theorem C78_no_trace : forall off N n ins,
  exists a a0, aho_of_caught off N n ins = Ok a /\ aho_of off N n (filter (insertable off N) ins) = Ok a0 /\
  forall text, aho_find_all off a text = aho_find_all off a0 text /\ aho_find_cnt off a text = aho_find_cnt off a0 text.
Proof.
  intros off N n ins. destruct (aho_of_caught_ok off N n ins) as (str & a & E & Hn & A & Hroot & Hnd & Hpre & HE & Hl).
  assert (Forall (insertable off N) (filter (insertable off N) ins)) as Hg by (apply Forall_forall; intros x Hx; apply elem_of_list_filter in Hx; tauto).
  destruct (aho_of_ok off N n _ Hg) as (str0 & a0 & E0 & Hn0 & A0 & Hroot0 & Hnd0 & Hpre0 & HE0 & Hl0).
  exists a, a0. split; [exact E|]. split; [exact E0|]. intros text. unfold kept in *. destruct (decide (in_alphabet off N text)) as [Ht|Ht].
  - split.
    + rewrite (find_all_ok off N str _ Hroot Hpre HE a A text Ht), (find_all_ok off N str0 _ Hroot0 Hpre0 HE0 a0 A0 text Ht). reflexivity.
    + rewrite (find_cnt_ok off N str _ Hroot Hnd Hpre HE a A text Ht), (find_cnt_ok off N str0 _ Hroot0 Hnd0 Hpre0 HE0 a0 A0 text Ht), Hn, Hn0. reflexivity.
  - split.
    + transitivity (@Panic (list (list nat))); [eapply (find_all_panic off N str); eauto|symmetry; eapply (find_all_panic off N str0); eauto].
    + transitivity (@Panic (list nat)); [eapply (find_cnt_panic off N str); eauto|symmetry; eapply (find_cnt_panic off N str0); eauto].
Qed.
Print Assumptions C78_no_trace.

(** C78: find, on the other hand, sees the part of a rejected string that was read: at every position it answers for the
    longest suffix that begins an inserted string or the valid part of a rejected one. *)
Theorem C78_find : forall off N n ins,
  exists a, aho_of_caught off N n ins = Ok a /\
    (forall text, in_alphabet off N text -> exists r, aho_find off a text = Ok r /\ length r = length text /\
       forall i, i < length text -> exists s, longest_live (read_parts off N ins) (take (i + 1) text) s /\
         r !! i = Some (last_index (filter (insertable off N) ins) s)) /\
    (forall text, ~ in_alphabet off N text -> aho_find off a text = Panic).
Proof.
  intros off N n ins. destruct (aho_of_caught_ok off N n ins) as (str & a & E & Hn & A & Hroot & Hnd & Hpre & HE & Hl). exists a. split; [exact E|]. split.
  - intros text Ht. rewrite (find_ok off N str _ Hroot Hpre a A text Ht). eexists. split; [reflexivity|]. split; [rewrite map_length; apply prefs_length|].
    intros i Hi. change (map ?f ?l) with (f <$> l). rewrite list_lookup_fmap, (prefs_lookup text i Hi). eexists. split; [|reflexivity].
    assert (forall s, s ∈ str <-> s = [] \/ exists x, x ∈ read_parts off N ins /\ s `prefix_of` x.1) as Hl'.
    { intros s. rewrite Hl. unfold tried, read_parts. change (map ?f ?l) with (f <$> l). setoid_rewrite elem_of_list_fmap. split.
      - intros [H|(x & X1 & X2)]; [auto|]. right. exists (valid_part off N x.1, x.2). split; [eauto|exact X2].
      - intros [H|(x & (y & -> & Y) & X2)]; [auto|]. right. exists y. auto. }
    unfold longest_live. cbv zeta. split; [apply lsuf_suffix|]. split; [apply Hl', lsuf_T, (T_nil str Hroot)|].
    intros s' S1 S2. apply suffix_length, lsuf_max; [exact S1|]. apply Hl'. exact S2.
  - intros text Ht. eapply find_panic; eauto.
Qed.
Print Assumptions C78_find.

(** C78: so a rejected insert can hide an occurrence from find. *)
Theorem C78_find_sees : exists off N n ins text a a0,
  aho_of_caught off N n ins = Ok a /\ aho_of off N n (filter (insertable off N) ins) = Ok a0 /\ in_alphabet off N text /\
  aho_find off a0 text = Ok [None; Some 0] /\ aho_find off a text = Ok [None; None].
Proof.
  eexists 97, 26, 2, [([98], 0); ([97; 98; 33], 1)], [97; 98], _, _.
  split; [vm_compute; reflexivity|]. split; [vm_compute; reflexivity|]. split; [apply (bool_decide_unpack _); vm_compute; exact I|].
  split; vm_compute; reflexivity.
Qed.
Print Assumptions C78_find_sees.

(** Non-vacuity: two of four inserts are rejected, one of them after creating nodes. *)
Example C78_nonvacuous : exists nodes, inserts_caught 97 26 (ah_nodes (aho_new 26 3)) [([97; 98], 0); ([97; 99; 33; 97], 1); ([], 5); ([98], 2)] = Ok nodes /\
  length nodes = 5 /\ filter (insertable 97 26) [([97; 98], 0); ([97; 99; 33; 97], 1); ([], 5); ([98], 2)] = [([97; 98], 0); ([98], 2)] /\
  read_parts 97 26 [([97; 99; 33; 97], 1)] = [([97; 99], 1)].
Proof. eexists. split; [vm_compute; reflexivity|]. split; [reflexivity|]. split; vm_compute; reflexivity. Qed.
