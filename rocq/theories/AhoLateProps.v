(** AhoCorasick: insert after build.  Main theorems. *)
From Verif Require Import Prelude UtilModel AhoSpec AhoModel AhoStr AhoTrie AhoBuild AhoProof AhoProps AhoLateSpec AhoLateProof.

(** C124: inserts after build of strings that the automaton can follow add no node.  Each index is stored at the longest suffix of
    the string that is a prefix of an early string; find, find_all and find_cnt then answer exactly as follows. *)
Theorem C124_late : forall off N n ins late, Forall (insertable off N) ins -> Forall (insertable off N) late -> Forall (fun x => walkable ins x.1) late ->
  exists a a' landed, aho_of off N n ins = Ok a /\ aho_inserts off N a late = Ok a' /\ length (ah_nodes a') = length (ah_nodes a) /\ lands ins late landed /\
    forall text, in_alphabet off N text ->
    exists r l, aho_find off a' text = Ok r /\ length r = length text /\ aho_find_all off a' text = Ok l /\ length l = length text /\
      (forall i s, i < length text -> longest_live ins (take (i + 1) text) s ->
         r !! i = Some (last_index (ins ++ landed) s) /\ l !! i = Some (late_matches ins landed (take (i + 1) text) s)) /\
      (Forall (fun k => k < n) (concat l) ->
         exists c, aho_find_cnt off a' text = Ok c /\ length c = n /\ forall k, k < n -> c !! k = Some (length (filter (fun j => j = k) (concat l)))) /\
      (~ Forall (fun k => k < n) (concat l) -> aho_find_cnt off a' text = Panic).
Proof.
  intros off N n ins late Hg Hi Hw. destruct (aho_of_ok off N n ins Hg) as (str & a & E & Hn & A & Hroot & Hnd & Hpre & HE & Hl). apply (AK_LK off N str) in A.
  destruct (lands_exists ins str Hroot Hl late) as (landed & Hd).
  destruct (lates_ok off N n ins str Hroot Hnd Hpre Hl late landed [] a Hi Hw Hd Hn) as (a' & E' & Hn' & A'); [rewrite app_nil_r; exact A|]. cbn [app] in A'.
  exists a, a', landed. split; [exact E|]. split; [exact E'|]. split; [rewrite (lk_len _ _ _ _ _ _ A), (lk_len _ _ _ _ _ _ A'); reflexivity|]. split; [exact Hd|]. intros text Ht.
  rewrite (find_late off N str _ Hroot Hpre _ a' A' text Ht), (find_all_late off N str _ Hroot Hpre _ a' A' text Ht), (find_cnt_late off N str _ Hroot Hnd Hpre _ a' A' text Ht).
  eexists _, _. split; [reflexivity|]. split; [rewrite map_length; apply prefs_length|]. split; [reflexivity|]. split; [rewrite map_length; apply prefs_length|]. split; [|rewrite Hn'; split].
  - intros i s Hlt Hs. change (map ?f ?l) with (f <$> l). rewrite !list_lookup_fmap, (prefs_lookup text i Hlt). cbn [fmap option_fmap option_map].
    rewrite (longest_unique ins _ _ _ Hs (longest_lsuf ins str Hroot Hl _)). split; [reflexivity|]. f_equal. apply allL_late; assumption.
  - intros Hk. match goal with |- exists c, rfor ?l bump ?z = _ /\ _ => destruct (bump_ok l z) as (r & -> & R1 & R2); [rewrite replicate_length; exact Hk|] end.
    exists r. rewrite replicate_length in R1. split; [reflexivity|]. split; [congruence|]. intros k Hkn. rewrite (R2 k 0); [reflexivity|]. apply lookup_replicate_2. exact Hkn.
  - intros Hk. apply bump_panic. rewrite replicate_length. exact Hk.
Qed.
Print Assumptions C124_late.

Lemma live_walkable ins s : (exists x, x ∈ ins /\ s `prefix_of` x.1) -> walkable ins s.
Proof. intros (x & Hx & Hs) p Hp Hne. exists p. split; [exact Hne|]. split; [reflexivity|]. exists x. split; [exact Hx|]. etransitivity; eauto. Qed.
Lemma live_lands ins late landed : Forall (fun x => exists y, y ∈ ins /\ x.1 `prefix_of` y.1) late -> lands ins late landed -> landed = late.
Proof.
  intros H Hd. induction Hd as [|[s i] [t j] late landed [D1 D2] Hd IH]; [reflexivity|]. apply Forall_cons in H as [H1 H]. cbn [fst snd] in *. subst j. rewrite IH by exact H. f_equal. f_equal.
  apply (longest_unique ins s); [exact D1|]. split; [reflexivity|]. split; [right; exact H1|]. intros s' Hs' _. apply suffix_length. exact Hs'.
Qed.
Lemma live_same ins late t s : Forall (fun x => exists y, y ∈ ins /\ x.1 `prefix_of` y.1) late -> longest_live (ins ++ late) t s <-> longest_live ins t s.
Proof.
  intros H. assert (L : forall u, (u = [] \/ exists x, x ∈ ins ++ late /\ u `prefix_of` x.1) <-> (u = [] \/ exists x, x ∈ ins /\ u `prefix_of` x.1)).
  { intros u. split; (intros [->|(x & Hx & Hu)]; [left; reflexivity|]); right.
    - apply elem_of_app in Hx as [Hx|Hx]; [eauto|]. rewrite Forall_forall in H. destruct (H x Hx) as (y & Hy & Hp). exists y. split; [exact Hy|]. etransitivity; eauto.
    - exists x. split; [apply elem_of_app; auto|exact Hu]. }
  unfold longest_live. rewrite L. setoid_rewrite L. reflexivity.
Qed.
Lemma last_index_app_some ins late s k : last_index ins s = Some k -> exists k', last_index (ins ++ late) s = Some k'.
Proof. intros H. apply last_index_in in H. apply (last_index_some _ s k). apply elem_of_app. left. exact H. Qed.
Lemma list_ext {A} (l l' : list A) : length l = length l' -> (forall i x, l !! i = Some x -> l' !! i = Some x) -> l = l'.
Proof.
  intros Hl H. apply list_eq. intros i. destruct (l !! i) as [x|] eqn:Ei; [symmetry; apply H; exact Ei|]. symmetry. apply lookup_ge_None. apply lookup_ge_None in Ei. lia.
Qed.

(** Strings that are prefixes of early strings: find answers as if they had been inserted before build; find_all lists a part of what
    it would list, and never a wrong index. *)
Theorem C124_prefix : forall off N n ins late, Forall (insertable off N) ins -> Forall (insertable off N) late ->
  Forall (fun x => exists y, y ∈ ins /\ x.1 `prefix_of` y.1) late ->
  exists a a' a2, aho_of off N n ins = Ok a /\ aho_inserts off N a late = Ok a' /\ aho_of off N n (ins ++ late) = Ok a2 /\
    forall text, in_alphabet off N text -> aho_find off a' text = aho_find off a2 text /\
      exists l l2, aho_find_all off a' text = Ok l /\ aho_find_all off a2 text = Ok l2 /\ Forall2 sublist l l2.
Proof.
  intros off N n ins late Hg Hi Hp. assert (Hw : Forall (fun x => walkable ins x.1) late) by (eapply Forall_impl; [exact Hp|]; intros x Hx; apply live_walkable; exact Hx).
  destruct (C124_late off N n ins late Hg Hi Hw) as (a & a' & landed & E & E' & _ & Hd & H). apply (live_lands ins late landed Hp) in Hd as ->.
  assert (Hg2 : Forall (insertable off N) (ins ++ late)) by (apply Forall_app; auto).
  destruct (C19_find_partial off N n _ Hg2) as (a2 & E2 & F2 & _). destruct (C17_find_all off N n _ Hg2) as (a3 & E3 & F3 & _). assert (a3 = a2) as -> by congruence. clear E3.
  exists a, a', a2. split; [exact E|]. split; [exact E'|]. split; [exact E2|]. intros text Ht. destruct (H text Ht) as (r & l & R1 & R2 & L1 & L2 & Hr & _). destruct (F2 text Ht) as (r2 & S1 & S2 & S3). destruct (F3 text Ht) as (l2 & M1 & M2 & M3).
  split.
  - rewrite R1, S1. f_equal. apply list_ext; [congruence|]. intros i x Hx. assert (Hlt : i < length text) by (rewrite <- R2; apply lookup_lt_Some in Hx; exact Hx).
    destruct (S3 i Hlt) as (s & Hs & ->). apply (live_same ins late) in Hs; [|exact Hp]. destruct (Hr i s Hlt Hs) as [Hr1 _]. congruence.
  - exists l, l2. split; [exact L1|]. split; [exact M1|]. apply Forall2_same_length_lookup_2; [congruence|]. intros i x y Hx Hy. assert (Hlt : i < length text) by (rewrite <- L2; apply lookup_lt_Some in Hx; exact Hx).
    destruct (S3 i Hlt) as (s & Hs & _). apply (live_same ins late) in Hs; [|exact Hp]. destruct (Hr i s Hlt Hs) as [_ Hr2]. rewrite (M3 i Hlt) in Hy. rewrite Hr2 in Hx. injection Hx as <-. injection Hy as <-.
    unfold late_matches, matches. generalize (suffixes (take (i + 1) text)) as us. intros us. induction us as [|u us IH]; [constructor|]. cbn [omap list_omap].
    destruct (decide (u = s)); destruct (last_index ins u), (last_index (ins ++ late) u); try (apply sublist_skip; exact IH); try (apply sublist_cons; exact IH); exact IH.
Qed.
Print Assumptions C124_prefix.

(** Strings inserted again after build, with other indices: every answer is as if they had been inserted before build. *)
Theorem C124_again : forall off N n ins late, Forall (insertable off N) ins -> Forall (fun x => exists y, y ∈ ins /\ x.1 = y.1) late ->
  exists a a' a2, aho_of off N n ins = Ok a /\ aho_inserts off N a late = Ok a' /\ aho_of off N n (ins ++ late) = Ok a2 /\
    forall text, in_alphabet off N text -> aho_find off a' text = aho_find off a2 text /\ aho_find_all off a' text = aho_find_all off a2 text /\ aho_find_cnt off a' text = aho_find_cnt off a2 text.
Proof.
  intros off N n ins late Hg Hsame. assert (Hp : Forall (fun x => exists y, y ∈ ins /\ x.1 `prefix_of` y.1) late).
  { eapply Forall_impl; [exact Hsame|]. intros x (y & Hy & Ey). exists y. split; [exact Hy|]. rewrite Ey. reflexivity. }
  assert (Hi : Forall (insertable off N) late). { apply Forall_forall. intros x Hx. rewrite Forall_forall in Hsame. destruct (Hsame x Hx) as (y & Hy & Ey). rewrite Forall_forall in Hg. unfold insertable. rewrite Ey. exact (Hg y Hy). }
  destruct (C124_prefix off N n ins late Hg Hi Hp) as (a & a' & a2 & E & E' & E2 & HF). exists a, a', a2. split; [exact E|]. split; [exact E'|]. split; [exact E2|]. intros text Ht. destruct (HF text Ht) as [F1 _]. split; [exact F1|].
  assert (Hw : Forall (fun x => walkable ins x.1) late) by (eapply Forall_impl; [exact Hp|]; intros x Hx; apply live_walkable; exact Hx).
  destruct (C124_late off N n ins late Hg Hi Hw) as (b & b' & landed & B1 & B2 & _ & Hd & H). assert (b = a) as -> by congruence. assert (b' = a') as -> by congruence. apply (live_lands ins late landed Hp) in Hd as ->.
  assert (Hg2 : Forall (insertable off N) (ins ++ late)) by (apply Forall_app; auto).
  destruct (C19_find_partial off N n _ Hg2) as (a1 & G1 & F2 & _). assert (a1 = a2) as -> by congruence. destruct (C17_find_all off N n _ Hg2) as (a3 & E3 & F3 & _). assert (a3 = a2) as -> by congruence.
  destruct (C18_find_cnt off N n _ Hg2) as (a4 & E4 & F4 & _). assert (a4 = a2) as -> by congruence. clear G1 E3 E4 B1 B2.
  destruct (H text Ht) as (r & l & R1 & R2 & L1 & L2 & Hr & C1 & C2). destruct (F2 text Ht) as (r2 & S1 & S2 & S3). destruct (F3 text Ht) as (l2 & M1 & M2 & M3).
  assert (El : l = map (fun i => matches (ins ++ late) (take (i + 1) text)) (seq 0 (length text))).
  { apply list_ext; [rewrite map_length, seq_length; exact L2|]. intros i x Hx. assert (Hlt : i < length text) by (rewrite <- L2; apply lookup_lt_Some in Hx; exact Hx).
    change (map ?f ?l) with (f <$> l). rewrite list_lookup_fmap, lookup_seq_lt by exact Hlt. cbn [fmap option_fmap option_map Nat.add]. destruct (S3 i Hlt) as (s & Hs & _). apply (live_same ins late) in Hs; [|exact Hp]. destruct (Hr i s Hlt Hs) as [_ Hr2].
    rewrite Hr2 in Hx. rewrite <- Hx. f_equal. unfold late_matches, matches. generalize (suffixes (take (i + 1) text)) as us. intros us. induction us as [|u us IH]; [reflexivity|]. cbn [omap list_omap]. rewrite IH.
    destruct (decide (u = s)); [reflexivity|]. destruct (last_index ins u) as [k|] eqn:Ek; [reflexivity|]. destruct (last_index (ins ++ late) u) as [k|] eqn:Ek2; [|reflexivity]. exfalso.
    apply last_index_in in Ek2. assert (exists j, (u, j) ∈ ins) as [j Hj].
    { apply elem_of_app in Ek2 as [Hin|Hin]; [eauto|]. rewrite Forall_forall in Hsame. destruct (Hsame _ Hin) as ([y j] & Hy & Ey). cbn in Ey. subst y. eauto. }
    apply last_index_some in Hj as [j' Hj']. congruence. }
  split.
  - rewrite L1, M1. f_equal. apply list_ext; [congruence|]. intros i x Hx. assert (Hlt : i < length text) by (rewrite <- L2; apply lookup_lt_Some in Hx; exact Hx). rewrite El in Hx. change (map ?f ?l) with (f <$> l) in Hx.
    rewrite list_lookup_fmap, lookup_seq_lt in Hx by exact Hlt. rewrite (M3 i Hlt). exact Hx.
  - destruct (F4 text Ht) as [G1 G2]. rewrite <- El in G1, G2. destruct (decide (Forall (fun k => k < n) (concat l))) as [Hk|Hk].
    + destruct (C1 Hk) as (c & -> & Lc & Hc). destruct (G1 Hk) as (c2 & -> & Lc2 & Hc2). f_equal. apply list_ext; [congruence|]. intros k x Hx. assert (k < n) as Hkn by (rewrite <- Lc; apply lookup_lt_Some in Hx; exact Hx). rewrite Hc2 by exact Hkn. rewrite <- Hx. symmetry. apply Hc. exact Hkn.
    + rewrite (C2 Hk), (G2 Hk). reflexivity.
Qed.
Print Assumptions C124_again.

(** "abc", "bab" early.  Late "ab" (a prefix): found where the automaton is at "ab", but missed inside "bab", where it would be listed
    had it been inserted early.  Late "bb" lands on "b" and is reported although "bb" does not occur. *)
Definition ex_early : list (list nat * nat) := [([97; 98; 99], 0); ([98; 97; 98], 1)].
Example C124_nonvacuous : Forall (insertable 97 26) (ex_early ++ [([97; 98], 2); ([98; 98], 3)]) /\ walkable ex_early [97; 98] /\ walkable ex_early [98; 98] /\
  lands ex_early [([97; 98], 2); ([98; 98], 3)] [([97; 98], 2); ([98], 3)] /\
  (a ← aho_of 97 26 4 ex_early; a ← aho_insert 97 26 a [97; 98] 2; aho_find_all 97 a [97; 98; 97; 98]) = Ok [[]; [2]; []; [1]] /\
  (a ← aho_of 97 26 4 (ex_early ++ [([97; 98], 2)]); aho_find_all 97 a [97; 98; 97; 98]) = Ok [[]; [2]; []; [1; 2]] /\
  (a ← aho_of 97 26 4 ex_early; a ← aho_insert 97 26 a [98; 98] 3; aho_find_all 97 a [99; 98]) = Ok [[]; [3]] /\
  (a ← aho_of 97 26 4 ex_early; a ← aho_insert 97 26 a [98; 97; 98] 3; aho_find_cnt 97 a [98; 97; 98; 97; 98]) = Ok [0; 0; 0; 2].
Proof.
  assert (W1 : walkable ex_early [97; 98]) by (apply live_walkable; exists ([97; 98; 99], 0); split; [left|exists [99]; reflexivity]).
  split; [apply (bool_decide_unpack _); vm_compute; exact I|]. split; [exact W1|]. split.
  { intros p Hp Hne. exists [98]. split; [discriminate|]. split; [|exists ([98; 97; 98], 1); split; [right; left|exists [97; 98]; reflexivity]].
    destruct Hp as [k Ek]. destruct p as [|x [|y [|z p]]]; [contradiction| | |discriminate]; injection Ek; intros; subst; [exists []; reflexivity|exists [98]; reflexivity]. }
  split.
  { assert (Ll : forall t s, s `suffix_of` t -> (s = [] \/ exists x, x ∈ ex_early /\ s `prefix_of` x.1) -> (forall s', s' ∈ suffixes t -> length s < length s' -> ~ Exists (fun x => s' `prefix_of` x.1) ex_early) -> longest_live ex_early t s).
    { intros t s H1 H2 H3. split; [exact H1|]. split; [exact H2|]. intros s' S1 S2. destruct (decide (length s' <= length s)) as [|Hn]; [assumption|]. exfalso. destruct S2 as [->|(x & Hx & Hs)]; [cbn in Hn; lia|].
      apply (H3 s'); [apply elem_suffixes; exact S1|lia|]. apply Exists_exists. eauto. }
    constructor; [split; [|reflexivity]; apply Ll|constructor; [split; [|reflexivity]; apply Ll|constructor]]; cbn [fst snd].
    - reflexivity.
    - right. exists ([97; 98; 99], 0). split; [left|exists [99]; reflexivity].
    - intros s' Hs' Hn. cbn in Hs'. repeat (apply elem_of_cons in Hs' as [->|Hs']; [cbn in Hn; lia|]). inversion Hs'.
    - exists [98]. reflexivity.
    - right. exists ([98; 97; 98], 1). split; [right; left|exists [97; 98]; reflexivity].
    - intros s' Hs' Hn. cbn in Hs'. apply elem_of_cons in Hs' as [->|Hs']; [apply (bool_decide_unpack _); vm_compute; exact I|]. repeat (apply elem_of_cons in Hs' as [->|Hs']; [cbn in Hn; lia|]). inversion Hs'. }
  vm_compute. auto.
Qed.

(** A byte that starts no early string gives a new state without links: the early "ab" is no longer found in "bab". *)
Example C124_new_letter : walkable [([97; 98], 0)] [98] -> False.
Proof.
  intros H. destruct (H [98]) as (u & U1 & [k U2] & (x & Hx & [t U3])); [reflexivity|discriminate|]. apply elem_of_list_singleton in Hx as ->. cbn in U3. destruct u as [|c u]; [contradiction|]. injection U3 as <- U3.
  destruct k as [|y k]; [discriminate|]. injection U2 as <- U2. destruct k; discriminate.
Qed.
Example C124_new_letter_lost :
  (a ← aho_of 97 26 2 [([97; 98], 0)]; aho_find_all 97 a [98; 97; 98]) = Ok [[]; []; [0]] /\
  (a ← aho_of 97 26 2 [([97; 98], 0)]; a ← aho_insert 97 26 a [98] 1; aho_find_all 97 a [98; 97; 98]) = Ok [[1]; []; [1]].
Proof. vm_compute. auto. Qed.
