(** Aho-Corasick: main theorems. *)
From Verif Require Import Prelude UtilModel AhoSpec AhoModel AhoStr AhoTrie AhoBuild AhoProof.

(** new(n), then the inserts, then build. *)
Definition aho_of (off N n : nat) (ins : list (list nat * nat)) : res aho := a ← aho_inserts off N (aho_new N n) ins; aho_build N a.
(** What insert asks for. *)
Definition insertable (off N : nat) (x : list nat * nat) : Prop := x.1 <> [] /\ in_alphabet off N x.1.
#[global] Instance ends_at_dec text s i : Decision (ends_at text s i).
Proof. unfold ends_at. apply _. Defined.

Lemma last_index_in ins s k : last_index ins s = Some k -> (s, k) ∈ ins.
Proof.
  induction ins as [|x ins IH] using rev_ind; [discriminate|]. rewrite last_index_snoc, elem_of_app, elem_of_list_singleton.
  destruct (decide (x.1 = s)) as [<-|_]; [|auto]. intros [= <-]. right. destruct x; reflexivity.
Qed.
Lemma last_index_some ins s k : (s, k) ∈ ins -> exists k', last_index ins s = Some k'.
Proof.
  induction ins as [|x ins IH] using rev_ind; [intros H; inversion H|]. rewrite last_index_snoc, elem_of_app, elem_of_list_singleton.
  destruct (decide (x.1 = s)) as [_|Hne]; [eauto|]. intros [H|<-]; [auto|]. cbn in Hne. contradiction.
Qed.

Section facts.
  Context (off N n : nat) (ins : list (list nat * nat)) (Hg : Forall (insertable off N) ins).
  Lemma aho_of_ok : exists str a, aho_of off N n ins = Ok a /\ ah_n a = n /\ AK off N str (last_index ins) (ah_nodes a) /\
    str !! 0 = Some [] /\ NoDup str /\ (forall s c, s ++ [c] ∈ str -> s ∈ str) /\ (forall s k, last_index ins s = Some k -> s ∈ str) /\ (forall s, s ∈ str <-> live ins s).
  Proof.
    destruct (inserts_ok off N n ins Hg) as (str & a & E & Hn & TH & Hl). unfold aho_of. rewrite E. cbn [mbind res_bind]. destruct a as [n' nodes]. cbn in Hn, TH. subst n'.
    pose proof TH as [Hlen Hroot Hnd Hpre Halph HE Hnode].
    assert (last_index ins [] = None) as HE0.
    { destruct (last_index ins []) as [k|] eqn:Ek; [|reflexivity]. apply last_index_in in Ek. rewrite Forall_forall in Hg. destruct (Hg _ Ek) as [H _]. contradiction. }
    destruct (build_ok off N str (last_index ins) Hroot Hnd Hpre Halph HE HE0 nodes TH n) as (a & Ea & Hn & A). exists str, a. auto 10.
  Qed.
End facts.

(** C17: after any inserts (any indices, repeated strings), find_all lists for every position the indices of the inserted
    strings ending there, longest first; for a string inserted several times it is the last index. *)
Theorem C17_find_all : forall off N n ins, Forall (insertable off N) ins ->
  exists a, aho_of off N n ins = Ok a /\
    (forall text, in_alphabet off N text -> exists r, aho_find_all off a text = Ok r /\ length r = length text /\
       forall i, i < length text -> r !! i = Some (matches ins (take (i + 1) text))) /\
    (forall text, ~ in_alphabet off N text -> aho_find_all off a text = Panic).
Proof.
  intros off N n ins Hg. destruct (aho_of_ok off N n ins Hg) as (str & a & E & Hn & A & Hroot & Hnd & Hpre & HE & Hl). exists a. split; [exact E|]. split.
  - intros text Ht. rewrite (find_all_ok off N str _ Hroot Hpre HE a A text Ht). eexists. split; [reflexivity|]. split; [rewrite map_length; apply prefs_length|].
    intros i Hi. change (map ?f ?l) with (f <$> l). rewrite list_lookup_fmap, (prefs_lookup text i Hi). reflexivity.
  - intros text Ht. eapply find_all_panic; eauto.
Qed.
Print Assumptions C17_find_all.

(** C17: an empty string, or a byte outside the alphabet, makes insert panic. *)
Theorem C17_insert_panics : forall off N n ins, ~ Forall (insertable off N) ins -> aho_of off N n ins = Panic.
Proof. intros off N n ins H. unfold aho_of. rewrite (inserts_panic off N n ins H). reflexivity. Qed.
Print Assumptions C17_insert_panics.

(** *** The constructor from *)
Lemma rfor_numbered {S} (f : list nat -> nat -> S -> res S) : forall (l pre : list (list nat)) (s : S),
  rfor (seq (length pre) (length l)) (fun i s => x ← vget (pre ++ l) i; f x i s) s = rfor (imap (fun i x => (x, length pre + i)) l) (fun x s => f x.1 x.2 s) s.
Proof.
  induction l as [|x l IH]; intros pre s; [reflexivity|]. cbn [length seq rfor imap]. rewrite (vget_ok _ _ x) by (apply list_lookup_middle; reflexivity).
  cbn [mbind res_bind fst snd]. rewrite Nat.add_0_r. destruct (f x (length pre) s) as [s'| |]; cbn [mbind res_bind]; [|reflexivity|reflexivity].
  specialize (IH (pre ++ [x]) s'). rewrite app_length in IH. cbn [length] in IH. rewrite Nat.add_1_r, <- app_assoc in IH. cbn [app] in IH. rewrite IH.
  f_equal. apply imap_ext. intros i y _. cbn. f_equal. lia.
Qed.
Lemma from_eq off N patterns : aho_from off N patterns = aho_of off N (length patterns) (numbered patterns).
Proof.
  unfold aho_from, aho_of, aho_inserts, numbered, range. rewrite Nat.sub_0_r.
  pose proof (rfor_numbered (fun s i a => aho_insert off N a s i) patterns [] (aho_new N (length patterns))) as H. cbn [app length Nat.add] in H. rewrite H. reflexivity.
Qed.
Lemma elem_numbered patterns s k : (s, k) ∈ numbered patterns <-> patterns !! k = Some s.
Proof.
  unfold numbered. rewrite elem_of_list_lookup. setoid_rewrite list_lookup_imap_Some. split.
  - intros (i & x & Hx & [= <- <-]). exact Hx.
  - intros H. exists k, s. auto.
Qed.
Lemma numbered_insertable off N patterns : Forall (insertable off N) (numbered patterns) <-> Forall (fun s => s <> [] /\ in_alphabet off N s) patterns.
Proof.
  rewrite !Forall_forall. split.
  - intros H s Hs. apply elem_of_list_lookup_1 in Hs as (k & Hk). apply elem_numbered in Hk. apply (H _ Hk).
  - intros H [s k] Hk. apply elem_numbered in Hk. apply (H s). eapply elem_of_list_lookup_2; eauto.
Qed.
Lemma index_numbered patterns : NoDup patterns -> forall s k, last_index (numbered patterns) s = Some k <-> patterns !! k = Some s.
Proof.
  intros Hnd s k. split; [intros H; apply elem_numbered, last_index_in; exact H|]. intros H. destruct (last_index_some (numbered patterns) s k) as (k' & Hk'); [apply elem_numbered; exact H|].
  rewrite Hk'. f_equal. apply last_index_in, elem_numbered in Hk'. eapply NoDup_lookup; eauto.
Qed.

Section lists.
  Context (patterns : list (list nat)) (Hnd : NoDup patterns).
  Notation E := (last_index (numbered patterns)).
  Notation pl k := (length (default [] (patterns !! k))).
  Lemma elem_matches t k : k ∈ matches (numbered patterns) t <-> exists s, patterns !! k = Some s /\ s `suffix_of` t.
  Proof.
    unfold matches. rewrite elem_of_list_omap. setoid_rewrite elem_suffixes. setoid_rewrite (index_numbered patterns Hnd). split; intros (s & H1 & H2); eauto.
  Qed.
  Lemma matches_cons c t : matches (numbered patterns) (c :: t) = match E (c :: t) with Some k => [k] | None => [] end ++ matches (numbered patterns) t.
  Proof. apply (allE_unfold E). Qed.
  Lemma matches_sorted t : forall x y k k', x < y -> matches (numbered patterns) t !! x = Some k -> matches (numbered patterns) t !! y = Some k' -> pl k' < pl k.
  Proof.
    induction t as [|c t IH]; intros x y k k' Hxy Hx Hy.
    - exfalso. unfold matches in Hx, Hy. cbn in Hx, Hy. destruct (E []); [|discriminate]. destruct y as [|[|y]]; try discriminate. lia.
    - rewrite matches_cons in Hx, Hy. destruct (E (c :: t)) as [j|] eqn:Ej; [|eapply IH; eauto]. cbn [app] in Hx, Hy. destruct y as [|y]; [lia|]. destruct x as [|x].
      + injection Hx as <-. cbn in Hy. apply elem_of_list_lookup_2, elem_matches in Hy as (s & H1 & H2). apply (index_numbered patterns Hnd) in Ej. rewrite H1, Ej. cbn.
        apply suffix_length in H2. lia.
      + cbn in Hx, Hy. eapply IH; [|exact Hx|exact Hy]. lia.
  Qed.
  Lemma matches_nodup t : NoDup (matches (numbered patterns) t).
  Proof.
    apply NoDup_alt. intros i j k Hi Hj. destruct (Nat.lt_trichotomy i j) as [H|[H|H]]; [|exact H|].
    - pose proof (matches_sorted t i j k k H Hi Hj). lia.
    - pose proof (matches_sorted t j i k k H Hj Hi). lia.
  Qed.
End lists.

(** C17 for from(patterns) with distinct patterns. *)
Theorem C17_from_find_all : forall off N patterns,
  NoDup patterns -> Forall (fun s => s <> [] /\ in_alphabet off N s) patterns ->
  exists a, aho_from off N patterns = Ok a /\ forall text, in_alphabet off N text ->
  exists r, aho_find_all off a text = Ok r /\ length r = length text /\
    forall i l, r !! i = Some l -> NoDup l /\ (forall k, k ∈ l <-> exists s, patterns !! k = Some s /\ ends_at text s i) /\
      forall x y k k' s s', x < y -> l !! x = Some k -> l !! y = Some k' -> patterns !! k = Some s -> patterns !! k' = Some s' -> length s' < length s.
Proof.
  intros off N patterns Hnd Hg. apply numbered_insertable in Hg. destruct (C17_find_all off N (length patterns) (numbered patterns) Hg) as (a & E & H & _).
  exists a. rewrite from_eq. split; [exact E|]. intros text Ht. destruct (H text Ht) as (r & R1 & R2 & R3). exists r. split; [exact R1|]. split; [exact R2|].
  intros i l Hi. assert (i < length text) as Hlt by (rewrite <- R2; apply lookup_lt_Some in Hi; exact Hi). rewrite (R3 i Hlt) in Hi. injection Hi as <-.
  split; [apply matches_nodup; exact Hnd|]. split.
  - intros k. rewrite (elem_matches patterns Hnd). unfold ends_at. split; intros (s & A & B); exists s; tauto.
  - intros x y k k' s s' Hxy Hx Hy Hk Hk'. pose proof (matches_sorted patterns Hnd _ x y k k' Hxy Hx Hy) as Hlen. rewrite Hk, Hk' in Hlen. exact Hlen.
Qed.
Print Assumptions C17_from_find_all.

(** C18: after any inserts, find_cnt(text)[k] is the number of times k is listed by find_all; it panics if an index
    not below n is listed. *)
Theorem C18_find_cnt : forall off N n ins, Forall (insertable off N) ins ->
  exists a, aho_of off N n ins = Ok a /\
    (forall text, in_alphabet off N text ->
       let listed := concat (map (fun i => matches ins (take (i + 1) text)) (seq 0 (length text))) in
       (Forall (fun k => k < n) listed ->
        exists r, aho_find_cnt off a text = Ok r /\ length r = n /\ forall k, k < n -> r !! k = Some (length (filter (fun j => j = k) listed))) /\
       (~ Forall (fun k => k < n) listed -> aho_find_cnt off a text = Panic)) /\
    (forall text, ~ in_alphabet off N text -> aho_find_cnt off a text = Panic).
Proof.
  intros off N n ins Hg. destruct (aho_of_ok off N n ins Hg) as (str & a & E & Hn & A & Hroot & Hnd & Hpre & HE & Hl). exists a. split; [exact E|]. split.
  - intros text Ht listed. rewrite (find_cnt_ok off N str _ Hroot Hnd Hpre HE a A text Ht). rewrite Hn. unfold prefs. rewrite map_map. change (concat _) with listed.
    assert (length (replicate n 0) = n) as Hr by apply replicate_length. split.
    + intros Hk. destruct (bump_ok listed (replicate n 0)) as (r & -> & R1 & R2); [rewrite Hr; exact Hk|]. exists r. split; [reflexivity|]. split; [congruence|].
      intros k Hkn. rewrite (R2 k 0); [reflexivity|]. apply lookup_replicate_2. exact Hkn.
    + intros Hk. apply bump_panic. rewrite Hr. exact Hk.
  - intros text Ht. eapply find_cnt_panic; eauto.
Qed.
Print Assumptions C18_find_cnt.

Lemma count_concat {B} (f : B -> list nat) k (l : list B) : (forall x, NoDup (f x)) ->
  length (filter (fun j => j = k) (concat (map f l))) = length (filter (fun x => k ∈ f x) l).
Proof.
  intros Hnd. induction l as [|x l IH]; [reflexivity|]. cbn [map concat]. rewrite filter_app, app_length, IH.
  assert (length (filter (fun j => j = k) (f x)) = if decide (k ∈ f x) then 1 else 0) as ->.
  { specialize (Hnd x). induction (f x) as [|j r IHr]; [reflexivity|]. apply NoDup_cons in Hnd as [Hj Hr]. specialize (IHr Hr). destruct (decide (j = k)) as [->|Hne].
    - rewrite filter_cons_True by reflexivity. cbn [length]. rewrite IHr, decide_False by exact Hj. rewrite decide_True by left. reflexivity.
    - rewrite filter_cons_False by exact Hne. rewrite IHr. destruct (decide (k ∈ r)) as [Hin|Hin]; [rewrite decide_True by (right; exact Hin); reflexivity|].
      rewrite decide_False; [reflexivity|]. rewrite elem_of_cons. intros [?|?]; [congruence|contradiction]. }
  destruct (decide (k ∈ f x)) as [Hin|Hin]; [rewrite filter_cons_True by exact Hin|rewrite filter_cons_False by exact Hin]; reflexivity.
Qed.
Lemma filter_same {B} (P Q : B -> Prop) `{!forall x, Decision (P x), !forall x, Decision (Q x)} (l : list B) :
  (forall x, x ∈ l -> P x <-> Q x) -> filter P l = filter Q l.
Proof.
  induction l as [|x l IH]; intros HPQ; [reflexivity|]. assert (P x <-> Q x) as Hx by (apply HPQ; left).
  assert (filter P l = filter Q l) as El by (apply IH; intros y Hy; apply HPQ; right; exact Hy).
  destruct (decide (P x)) as [Hp|Hp].
  - rewrite !filter_cons_True by tauto. rewrite El. reflexivity.
  - rewrite !filter_cons_False by tauto. exact El.
Qed.
(** C18 for from(patterns) with distinct patterns: find_cnt(text)[k] is the number of positions at which pattern k ends. *)
Theorem C18_from_find_cnt : forall off N patterns,
  NoDup patterns -> Forall (fun s => s <> [] /\ in_alphabet off N s) patterns ->
  exists a, aho_from off N patterns = Ok a /\ forall text, in_alphabet off N text ->
  exists r, aho_find_cnt off a text = Ok r /\ length r = length patterns /\
    forall k s, patterns !! k = Some s -> r !! k = Some (length (filter (ends_at text s) (seq 0 (length text)))).
Proof.
  intros off N patterns Hnd Hg. apply numbered_insertable in Hg. destruct (C18_find_cnt off N (length patterns) (numbered patterns) Hg) as (a & E & H & _).
  exists a. rewrite from_eq. split; [exact E|]. intros text Ht. destruct (H text Ht) as [H1 _]. destruct H1 as (r & R1 & R2 & R3).
  - apply Forall_forall. intros k Hk. apply elem_of_list_In, in_concat in Hk as (l & Hl & Hk). apply in_map_iff in Hl as (i & <- & _). apply elem_of_list_In, (elem_matches patterns Hnd) in Hk as (s & Hs & _).
    apply lookup_lt_Some in Hs. exact Hs.
  - exists r. split; [exact R1|]. split; [exact R2|]. intros k s Hk. rewrite R3 by (apply lookup_lt_Some in Hk; exact Hk). f_equal.
    rewrite count_concat by (intros x; apply matches_nodup; exact Hnd). f_equal. apply filter_same. intros i Hi. apply elem_of_seq in Hi.
    rewrite (elem_matches patterns Hnd). unfold ends_at. split.
    + intros (s' & A & B). rewrite Hk in A. injection A as <-. split; [lia|exact B].
    + intros [_ B]. exists s. auto.
Qed.
Print Assumptions C18_from_find_cnt.

(** C19, what find really returns: the index of the longest suffix of text[0..=i] that is a prefix of an inserted string,
    if this suffix is itself an inserted string.  Missing for the full C19: a shorter string ending at i is not reported. *)
Theorem C19_find_partial : forall off N n ins, Forall (insertable off N) ins ->
  exists a, aho_of off N n ins = Ok a /\
    (forall text, in_alphabet off N text -> exists r, aho_find off a text = Ok r /\ length r = length text /\
       forall i, i < length text -> exists s, longest_live ins (take (i + 1) text) s /\ r !! i = Some (last_index ins s)) /\
    (forall text, ~ in_alphabet off N text -> aho_find off a text = Panic).
Proof.
  intros off N n ins Hg. destruct (aho_of_ok off N n ins Hg) as (str & a & E & Hn & A & Hroot & Hnd & Hpre & HE & Hl). exists a. split; [exact E|]. split.
  - intros text Ht. rewrite (find_ok off N str _ Hroot Hpre a A text Ht). eexists. split; [reflexivity|]. split; [rewrite map_length; apply prefs_length|].
    intros i Hi. change (map ?f ?l) with (f <$> l). rewrite list_lookup_fmap, (prefs_lookup text i Hi). eexists. split; [|reflexivity].
    split; [apply lsuf_suffix|]. split; [apply Hl, lsuf_T, (T_nil str Hroot)|]. intros s' H1 H2. apply suffix_length. apply lsuf_max; [exact H1|]. apply Hl. exact H2.
  - intros text Ht. eapply find_panic; eauto.
Qed.
Print Assumptions C19_find_partial.

(** C19, first half, for from(patterns): a reported pattern ends at the position. *)
Theorem C19_find_sound_partial : forall off N patterns,
  Forall (fun s => s <> [] /\ in_alphabet off N s) patterns ->
  exists a, aho_from off N patterns = Ok a /\ forall text, in_alphabet off N text ->
  exists r, aho_find off a text = Ok r /\ length r = length text /\
    forall i k, r !! i = Some (Some k) -> exists s, patterns !! k = Some s /\ ends_at text s i.
Proof.
  intros off N patterns Hg. apply numbered_insertable in Hg. destruct (C19_find_partial off N (length patterns) (numbered patterns) Hg) as (a & E & H & _).
  exists a. rewrite from_eq. split; [exact E|]. intros text Ht. destruct (H text Ht) as (r & R1 & R2 & R3). exists r. split; [exact R1|]. split; [exact R2|].
  intros i k Hi. assert (i < length text) as Hlt by (rewrite <- R2; apply lookup_lt_Some in Hi; exact Hi). destruct (R3 i Hlt) as (s & (S1 & _) & S2).
  rewrite S2 in Hi. injection Hi as Hi. apply last_index_in, elem_numbered in Hi. exists s. split; [exact Hi|]. split; [exact Hlt|exact S1].
Qed.
Print Assumptions C19_find_sound_partial.

(** C19, second half, is false: patterns "abc" and "b", text "ab": "b" ends at position 1 and find reports nothing. *)
Theorem C19_find_complete_refuted : exists off N patterns text a r k s i,
  NoDup patterns /\ Forall (fun s => s <> [] /\ in_alphabet off N s) patterns /\ in_alphabet off N text /\
  aho_from off N patterns = Ok a /\ aho_find off a text = Ok r /\ patterns !! k = Some s /\ ends_at text s i /\ r !! i = Some None.
Proof.
  eexists 97, 26, [[97; 98; 99]; [98]], [97; 98], _, _, 1, [98], 1.
  split; [apply (bool_decide_unpack _); vm_compute; exact I|]. split; [apply (bool_decide_unpack _); vm_compute; exact I|]. split; [apply (bool_decide_unpack _); vm_compute; exact I|].
  split; [vm_compute; reflexivity|]. split; [vm_compute; reflexivity|]. split; [reflexivity|]. split; [apply (bool_decide_unpack _); vm_compute; exact I|reflexivity].
Qed.
Print Assumptions C19_find_complete_refuted.

(** *** A second build *)
Section again.
  Context (N L i0 : nat).
  (** Node numbers are in range and the transition by letter i0 is never 0. *)
  Definition rb (nodes : list node) : Prop := length nodes = L /\ forall p nd, nodes !! p = Some nd ->
    length (nd_next nd) = N /\ nd_back nd < L /\ (forall i x, nd_next nd !! i = Some x -> x < L) /\ nd_next nd !! i0 <> Some 0.
  Lemma rb_set nodes p nd : rb nodes -> length (nd_next nd) = N -> nd_back nd < L -> (forall i x, nd_next nd !! i = Some x -> x < L) -> nd_next nd !! i0 <> Some 0 ->
    rb (<[p:=nd]> nodes).
  Proof.
    intros [R1 R2] H1 H2 H3 H4. split; [rewrite insert_length; exact R1|]. intros p' nd' Hp. apply list_lookup_insert_Some in Hp as [(_ & <- & _)|[_ Hp]]; [auto|eapply R2; eauto].
  Qed.
  Lemma edge_again u i nodes q : u < L -> i < N -> rb nodes -> Forall (fun v => v < L) q ->
    exists nodes' q', build_edge u i (nodes, q) = Ok (nodes', q') /\ rb nodes' /\ Forall (fun v => v < L) q' /\ (q <> [] \/ i = i0 -> q' <> []).
  Proof.
    intros Hu Hi R Hq. pose proof R as [R1 R2]. unfold build_edge. destruct (lookup_lt_is_Some_2 nodes u) as [x Hx]; [lia|]. destruct (R2 _ _ Hx) as (X1 & X2 & X3 & X4).
    rewrite (vget_ok _ _ _ Hx). cbn [mbind res_bind]. destruct (lookup_lt_is_Some_2 nodes (nd_back x)) as [b Hb]; [lia|]. destruct (R2 _ _ Hb) as (B1 & B2 & B3 & B4).
    rewrite (vget_ok _ _ _ Hb). cbn [mbind res_bind]. destruct (lookup_lt_is_Some_2 (nd_next b) i) as [fl Hf]; [lia|]. pose proof (B3 _ _ Hf) as Hfl.
    rewrite (vget_ok _ _ _ Hf). cbn [mbind res_bind]. destruct (lookup_lt_is_Some_2 (nd_next x) i) as [v Hv]; [lia|]. pose proof (X3 _ _ Hv) as Hvl.
    rewrite (vget_ok _ _ _ Hv). cbn [mbind res_bind]. destruct (Nat.eqb_spec v 0) as [->|Hv0].
    - rewrite vset_ok by lia. cbn [mbind res_bind]. rewrite vset_ok by lia. cbn [mbind res_bind]. eexists _, _. split; [reflexivity|].
      assert (i <> i0) as Hne by congruence. split; [|split; [exact Hq|intros [?|?]; [assumption|contradiction]]].
      apply rb_set; [exact R|cbn; rewrite insert_length; exact X1|exact X2| |].
      + cbn. intros j y Hj. apply list_lookup_insert_Some in Hj as [(_ & <- & _)|[_ Hj]]; [exact Hfl|eapply X3; eauto].
      + cbn. rewrite list_lookup_insert_ne by exact Hne. exact X4.
    - destruct (lookup_lt_is_Some_2 nodes v) as [y Hy]; [lia|]. destruct (R2 _ _ Hy) as (Y1 & Y2 & Y3 & Y4). rewrite (vget_ok _ _ _ Hy). cbn [mbind res_bind].
      rewrite vset_ok by lia. cbn [mbind res_bind]. assert (forall o, rb (<[v:=Node fl (nd_end y) (nd_nmatches y) o (nd_next y)]> nodes)) as R' by (intros o; apply rb_set; auto).
      destruct (lookup_lt_is_Some_2 (<[v:=Node fl (nd_end y) (nd_nmatches y) (nd_output y) (nd_next y)]> nodes) fl) as [z Hz]; [rewrite insert_length; lia|].
      rewrite (vget_ok _ _ _ Hz). cbn [mbind res_bind]. rewrite (vget_ok _ v (Node fl (nd_end y) (nd_nmatches y) (nd_output y) (nd_next y))) by (apply list_lookup_insert; lia).
      cbn [mbind res_bind nd_back nd_end nd_nmatches nd_output nd_next]. rewrite vset_ok by (rewrite insert_length; lia). cbn [mbind res_bind]. rewrite list_insert_insert.
      eexists _, _. split; [reflexivity|]. split; [apply R'|]. split; [apply Forall_app; auto|]. intros _ E. apply app_eq_nil in E as [_ E]. discriminate.
  Qed.
  Lemma loop_again : i0 < N -> forall fuel nodes q, rb nodes -> Forall (fun v => v < L) q -> q <> [] -> rloop fuel (build_step N) (nodes, q) = Diverge.
  Proof.
    intros Hi0. induction fuel as [|fuel IH]; intros nodes q R Hq Hne; [reflexivity|]. cbn [rloop]. destruct q as [|u q]; [contradiction|].
    apply Forall_cons in Hq as [Hu Hq].
    destruct (rfor_range_inv (fun i st => rb st.1 /\ Forall (fun v => v < L) st.2 /\ (i0 < i -> st.2 <> [])) 0 N (build_edge u) (nodes, q)) as ([nodes' q'] & E & R' & Hq' & Hne').
    - lia.
    - cbn. split; [exact R|]. split; [exact Hq|lia].
    - intros i [nd' q1] Hi (R' & Hq' & Hn). cbn [fst snd] in *. destruct (edge_again u i nd' q1 Hu (proj2 Hi) R' Hq') as (nd2 & q2 & -> & A & B & C). eexists. split; [reflexivity|]. cbn.
      split; [exact A|]. split; [exact B|]. intros Hlt. apply C. destruct (decide (i = i0)); [auto|]. left. apply Hn. lia.
    - assert (build_step N (nodes, u :: q) = Ok (inl (nodes', q'))) as -> by (unfold build_step, range; rewrite E; reflexivity). cbn [mbind res_bind fst snd] in *. apply IH; auto.
  Qed.
End again.
(** C57: build must be called once: on a finished automaton with at least one string it never returns, with any fuel. *)
Theorem C57_second_build : forall off N n ins, Forall (insertable off N) ins -> ins <> [] ->
  exists a, aho_of off N n ins = Ok a /\ forall fuel, build_fuel N fuel a = Diverge.
Proof.
  intros off N n ins Hg Hins. destruct (aho_of_ok off N n ins Hg) as (str & a & E & Hn & A & Hroot & Hnd & Hpre & HE & Hl). exists a. split; [exact E|]. intros fuel.
  assert (exists i0, i0 < N /\ [off + i0] ∈ str) as (i0 & Hi0 & Hin).
  { destruct ins as [|x ins]; [contradiction|]. apply Forall_cons in Hg as [[H1 H2] _]. destruct x as [[|c s] k]; [contradiction|]. cbn in H1, H2. unfold in_alphabet in H2. apply Forall_cons in H2 as [H2 _].
    exists (c - off). split; [lia|]. replace (off + (c - off)) with c by lia. apply Hl. right. exists (c :: s, k). split; [left|]. exists s. reflexivity. }
  assert (forall s, s ∈ str -> forall p, str !! p = Some s -> forall x, str !! x = Some (lsuf (fun t => t ∈ str) _ (s ++ [off + i0])) -> x <> 0) as Hnz.
  { intros s Hs p Hp x Hx ->. rewrite Hroot in Hx. injection Hx as Hx. assert ([off + i0] `suffix_of` lsuf (fun t => t ∈ str) _ (s ++ [off + i0])) as Hsuf.
    { apply lsuf_max; [exists s; reflexivity|exact Hin]. }
    rewrite <- Hx in Hsuf. apply suffix_nil_inv in Hsuf. discriminate. }
  assert (rb N (length str) i0 (ah_nodes a)) as R.
  { split; [apply A|]. intros p nd Hp. assert (p < length str) as Hpl by (rewrite <- (ak_len _ _ _ _ _ A); apply lookup_lt_Some in Hp; exact Hp). destruct (lookup_lt_is_Some_2 str p Hpl) as [s Hs].
    destruct (ak_node _ _ _ _ _ A p s Hs) as (nd' & N1 & N2 & _ & N4 & _). rewrite Hp in N1. injection N1 as <-. split; [exact N2|].
    split; [rewrite <- (ak_len _ _ _ _ _ A); apply (ak_back _ _ _ _ _ A p nd Hp)|]. split.
    - intros i x Hx. destruct (N4 i) as (x' & X1 & X2); [apply lookup_lt_Some in Hx; lia|]. rewrite Hx in X1. injection X1 as <-. apply lookup_lt_Some in X2. exact X2.
    - destruct (N4 i0 Hi0) as (x' & X1 & X2). rewrite X1. intros [= ->]. exact (Hnz s (elem_of_list_lookup_2 _ _ _ Hs) p Hs 0 X2 eq_refl). }
  unfold build_fuel, range.
  destruct (ak_node _ _ _ _ _ A 0 [] Hroot) as (x & N1 & N2 & _ & N4 & _).
  destruct (rfor_range_inv (fun i q => Forall (fun v => v < length str) q /\ (i0 < i -> q <> [])) 0 N (fun i q =>
          x ← vget (ah_nodes a) 0; v ← vget (nd_next x) i; Ok (if negb (v =? 0) then q ++ [v] else q)) []) as (q & Eq & Hq & Hne).
  - lia.
  - split; [constructor|lia].
  - intros i q Hi [Hq Hne]. rewrite (vget_ok _ _ _ N1). cbn [mbind res_bind]. destruct (N4 i (proj2 Hi)) as (v & V1 & V2). rewrite (vget_ok _ _ _ V1). cbn [mbind res_bind]. eexists. split; [reflexivity|].
    destruct (Nat.eqb_spec v 0) as [->|Hv]; cbn [negb].
    + split; [exact Hq|]. intros Hlt. apply Hne. destruct (decide (i = i0)) as [->|]; [|lia]. exfalso. apply (Hnz [] (elem_of_list_lookup_2 _ _ _ Hroot) 0 Hroot 0 V2). reflexivity.
    + split; [apply Forall_app; split; [exact Hq|]; constructor; [|constructor]; apply lookup_lt_Some in V2; exact V2|]. intros _ Eq. apply app_eq_nil in Eq as [_ Eq]. discriminate.
  - rewrite Eq. cbn [mbind res_bind]. rewrite (loop_again N (length str) i0 Hi0 fuel (ah_nodes a) q R Hq (Hne Hi0)). reflexivity.
Qed.
Print Assumptions C57_second_build.

(** Overlapping patterns, one a suffix of another, and a repeated one. *)
Example C17_nonvacuous :
  Forall (insertable 97 3) (numbered [[97; 98]; [98]; [97; 98; 97; 98]; [98; 97]; [98]]) /\
  (a ← aho_from 97 3 [[97; 98]; [98]; [97; 98; 97; 98]; [98; 97]; [98]]; aho_find_all 97 a [97; 98; 97; 98; 99; 98]) = Ok [[]; [0; 4]; [3]; [2; 0; 4]; []; [4]] /\
  (a ← aho_from 97 3 [[97; 98]; [98]; [97; 98; 97; 98]; [98; 97]; [98]]; aho_find_cnt 97 a [97; 98; 97; 98; 99; 98]) = Ok [2; 0; 1; 1; 3] /\
  (a ← aho_from 97 3 [[97; 98]; [98]; [97; 98; 97; 98]; [98; 97]; [98]]; aho_find 97 a [97; 98; 97; 98; 99; 98]) = Ok [None; Some 0; None; Some 2; None; Some 4] /\
  (a ← aho_from 97 3 [[97; 98]; [98]]; aho_find_all 97 a [97; 100]) = Panic /\ aho_from 97 3 [[97]; []] = Panic.
Proof. split; [apply (bool_decide_unpack _); vm_compute; exact I|]. vm_compute. auto 10. Qed.
