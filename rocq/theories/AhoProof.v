(** Aho-Corasick: the searches. *)
From Verif Require Import Prelude UtilModel AhoSpec AhoModel AhoStr AhoTrie AhoBuild.

(** The non-empty prefixes of a text, shortest first. *)
Definition prefs (text : list nat) : list (list nat) := map (fun i => take (i + 1) text) (seq 0 (length text)).
Lemma prefs_snoc t c : prefs (t ++ [c]) = prefs t ++ [t ++ [c]].
Proof.
  unfold prefs. rewrite app_length. cbn [length]. rewrite Nat.add_1_r, seq_S, map_app. cbn [map]. f_equal.
  - apply map_ext_in. intros i Hi. apply in_seq in Hi. rewrite take_app_le by lia. reflexivity.
  - rewrite take_ge; [reflexivity|]. rewrite app_length. cbn. lia.
Qed.
Lemma prefs_lookup text i : i < length text -> prefs text !! i = Some (take (i + 1) text).
Proof. intros Hi. unfold prefs. change (map ?f ?l) with (f <$> l). rewrite list_lookup_fmap, lookup_seq_lt by exact Hi. reflexivity. Qed.
Lemma prefs_length text : length (prefs text) = length text.
Proof. unfold prefs. rewrite map_length, seq_length. reflexivity. Qed.

Section search.
  Context (off N : nat) (str : list (list nat)) (E : list nat -> option nat).
  Context (Hroot : str !! 0 = Some []) (Hnd : NoDup str) (Hpre : forall s c, s ++ [c] ∈ str -> s ∈ str)
    (HE : forall s k, E s = Some k -> s ∈ str).
  Context (a : aho) (A : AK off N str E (ah_nodes a)).
  Notation T := (fun s => s ∈ str).
  Notation lsuf := (lsuf T _).

  Lemma go_ok p s c : str !! p = Some s -> off <= c < off + N -> exists q, aho_go off a p c = Ok q /\ str !! q = Some (lsuf (s ++ [c])).
  Proof.
    intros Hp Hc. destruct (ak_node _ _ _ _ _ A p s Hp) as (nd & N1 & N2 & N3 & N4 & _). unfold aho_go, letter, nsub. rewrite (vget_ok _ _ _ N1). cbn [mbind res_bind].
    destruct (Nat.leb_spec off c); [|lia]. cbn [mbind res_bind]. destruct (N4 (c - off)) as (x & X1 & X2); [lia|]. exists x. split; [apply vget_ok; exact X1|].
    replace (off + (c - off)) with c in X2 by lia. exact X2.
  Qed.
  Lemma go_panic p s c : str !! p = Some s -> ~ (off <= c < off + N) -> aho_go off a p c = Panic.
  Proof.
    intros Hp Hc. destruct (ak_node _ _ _ _ _ A p s Hp) as (nd & N1 & N2 & _). unfold aho_go, letter, nsub. rewrite (vget_ok _ _ _ N1). cbn [mbind res_bind].
    destruct (Nat.leb_spec off c); [|reflexivity]. cbn [mbind res_bind]. apply vget_panic. lia.
  Qed.

  Lemma str_short p s : str !! p = Some s -> length s < length str.
  Proof.
    intros Hp. assert (length (map (fun k => take k s) (seq 0 (S (length s)))) <= length str) as H; [|rewrite map_length, seq_length in H; lia].
    apply submseteq_length, NoDup_submseteq.
    - change (map ?f ?l) with (f <$> l). apply NoDup_fmap_2_strong; [|apply NoDup_seq]. intros x y Hx Hy Exy. apply elem_of_seq in Hx, Hy.
      apply (f_equal length) in Exy. rewrite !take_length in Exy. lia.
    - intros x Hx. change (map ?f ?l) with (f <$> l) in Hx. apply elem_of_list_fmap in Hx as (k & -> & _).
      assert (forall t r, t ++ r ∈ str -> t ∈ str) as Hpp.
      { intros t r. revert t. induction r as [|c r IH]; intros t H; [rewrite app_nil_r in H; exact H|]. apply (Hpre t c), IH. rewrite <- app_assoc. exact H. }
      apply (Hpp _ (drop k s)). rewrite take_drop. eapply elem_of_list_lookup_2; eauto.
  Qed.

  (** At a node, the body of the search runs over the indices of all suffixes. *)
  Lemma chain_ok {B} (f : nat -> B -> res B) : forall fuel s o acc, out_ok str E o s -> length s < fuel ->
    rloop fuel (chain_step a f) (acc, o) = rfor (allP E s) f acc.
  Proof.
    induction fuel as [|fuel IH]; intros s o acc Ho Hl; [lia|]. cbn [rloop]. rewrite allP_outp. destruct o as [x|]; cbn [out_ok] in Ho.
    - destruct Ho as (t & Ht & Hx). rewrite Ht. destruct (ak_node _ _ _ _ _ A x t Hx) as (nd & N1 & N2 & N3 & N4 & N5). change (chain_step a f (acc, Some x)) with
        (nd ← vget (ah_nodes a) x; k ← runwrap (nd_end nd); acc ← f k acc; Ok (inl (acc, nd_output nd) : (B * option nat) + B)).
      rewrite (vget_ok _ _ _ N1). cbn [mbind res_bind].
      rewrite N3. pose proof (outp_length E s t Ht) as Hlt. assert (exists k, E t = Some k) as [k Hk].
      { destruct s as [|c s]; [discriminate|]. cbn in Ht. apply fsuf_Some in Ht. tauto. }
      rewrite Hk. cbn [runwrap mbind res_bind rfor]. destruct (f k acc) as [acc'| |]; cbn [mbind res_bind]; [|reflexivity|reflexivity]. apply IH; [exact N5|lia].
    - rewrite Ho. reflexivity.
  Qed.
  Lemma visit_ok {B} (f : nat -> B -> res B) p s acc : str !! p = Some s -> visit a f p acc = rfor (allE E s) f acc.
  Proof.
    intros Hp. unfold visit. destruct (ak_node _ _ _ _ _ A p s Hp) as (nd & N1 & N2 & N3 & N4 & N5). rewrite (vget_ok _ _ _ N1). cbn [mbind res_bind].
    rewrite N3, allE_unfold. pose proof (str_short p s Hp). destruct (E s) as [k|]; cbn [app rfor].
    - destruct (f k acc) as [acc'| |]; cbn [mbind res_bind]; [|reflexivity|reflexivity]. apply chain_ok; [exact N5|]. rewrite (ak_len _ _ _ _ _ A). lia.
    - cbn [mbind res_bind]. apply chain_ok; [exact N5|]. rewrite (ak_len _ _ _ _ _ A). lia.
  Qed.

  Lemma rfor_push {B} (l : list B) acc : rfor l (fun k l => Ok (l ++ [k])) acc = Ok (acc ++ l).
  Proof. revert acc. induction l as [|x l IH]; intros acc; cbn; [rewrite app_nil_r; reflexivity|]. rewrite IH, <- app_assoc. reflexivity. Qed.

  (** *** Searches over a text of the alphabet *)
  Section text.
    Context (text : list nat) (Htext : in_alphabet off N text).
    Lemma text_char d c rest : text = d ++ c :: rest -> off <= c < off + N.
    Proof. intros Et. rewrite Et in Htext. apply Forall_app in Htext as [_ Hc]. inversion Hc; auto. Qed.
    Lemma lsuf_step d c q : str !! q = Some (lsuf (lsuf d ++ [c])) -> str !! q = Some (lsuf (d ++ [c])).
    Proof. intros ->. f_equal. symmetry. apply (lsuf_snoc T); [eapply T_nil; eauto|exact Hpre]. Qed.
    Lemma lsuf_start : str !! 0 = Some (lsuf []).
    Proof. rewrite Hroot. f_equal. symmetry. apply lsuf_in. eapply T_nil; eauto. Qed.
    Lemma allE_live d : allE E (lsuf d) = allE E d.
    Proof. symmetry. apply (allE_lsuf T); [eapply T_nil; eauto|exact HE]. Qed.

    Lemma find_ok : aho_find off a text = Ok (map (fun t => E (lsuf t)) (prefs text)).
    Proof.
      unfold aho_find. match goal with |- (rfor text ?b ?i ≫= _) = _ => destruct (rfor_inv (fun d (st : list (option nat) * nat) =>
        st.1 = map (fun t => E (lsuf t)) (prefs d) /\ str !! st.2 = Some (lsuf d)) text b i) as ([r p] & -> & H1 & _) end.
      - split; [reflexivity|apply lsuf_start].
      - intros d c rest [r p] Et [H1 H2]. cbn [fst snd] in *. destruct (go_ok p _ c H2 (text_char _ _ _ Et)) as (q & -> & Q). cbn [mbind res_bind]. apply lsuf_step in Q.
        destruct (ak_node _ _ _ _ _ A q _ Q) as (nd & N1 & N2 & N3 & _). rewrite (vget_ok _ _ _ N1). cbn [mbind res_bind]. eexists. split; [reflexivity|]. cbn [fst snd].
        split; [|exact Q]. rewrite prefs_snoc, map_app, H1, N3. reflexivity.
      - cbn [mbind res_bind fst] in *. rewrite H1. reflexivity.
    Qed.
    Lemma find_all_ok : aho_find_all off a text = Ok (map (allE E) (prefs text)).
    Proof.
      unfold aho_find_all. match goal with |- (rfor text ?b ?i ≫= _) = _ => destruct (rfor_inv (fun d (st : list (list nat) * nat) =>
        st.1 = map (allE E) (prefs d) /\ str !! st.2 = Some (lsuf d)) text b i) as ([r p] & -> & H1 & _) end.
      - split; [reflexivity|apply lsuf_start].
      - intros d c rest [r p] Et [H1 H2]. cbn [fst snd] in *. destruct (go_ok p _ c H2 (text_char _ _ _ Et)) as (q & -> & Q). cbn [mbind res_bind]. apply lsuf_step in Q.
        rewrite (visit_ok _ q _ _ Q), rfor_push. cbn [mbind res_bind app]. eexists. split; [reflexivity|]. cbn [fst snd].
        split; [|exact Q]. rewrite prefs_snoc, map_app, H1, allE_live. reflexivity.
      - cbn [mbind res_bind fst] in *. rewrite H1. reflexivity.
    Qed.
  End text.

  Definition bump (k : nat) (cnt : list nat) : res (list nat) := x ← vget cnt k; vset cnt k (x + 1).
  Lemma find_cnt_gen : forall text p d cnt, in_alphabet off N text -> str !! p = Some (lsuf d) ->
    exists q, str !! q = Some (lsuf (d ++ text)) /\
    rfor text (fun c st => p ← aho_go off a st.2 c; cnt ← visit a bump p st.1; Ok (cnt, p)) (cnt, p)
    = (cnt ← rfor (concat (map (fun i => allE E (d ++ take (i + 1) text)) (seq 0 (length text)))) bump cnt; Ok (cnt, q)).
  Proof.
    induction text as [|c text IH]; intros p d cnt Ht Hp.
    - exists p. rewrite app_nil_r. auto.
    - inversion Ht as [|? ? Hc Ht']; subst. destruct (go_ok p _ c Hp Hc) as (q & Eg & Q). apply lsuf_step in Q.
      destruct (IH q (d ++ [c]) cnt Ht' Q) as (q2 & Q2 & _). exists q2. rewrite <- app_assoc in Q2. split; [exact Q2|].
      cbn [rfor fst snd]. rewrite Eg. cbn [mbind res_bind]. rewrite (visit_ok _ q _ _ Q), allE_live.
      cbn [length seq map concat]. rewrite rfor_app. change (take (0 + 1) (c :: text)) with [c].
      destruct (rfor (allE E (d ++ [c])) bump cnt) as [cnt'| |]; cbn [mbind res_bind]; [|reflexivity|reflexivity].
      destruct (IH q (d ++ [c]) cnt' Ht' Q) as (q3 & Q3 & ->). rewrite <- app_assoc in Q3. cbn [app] in Q3. assert (q3 = q2) as -> by (eapply NoDup_lookup; eauto).
      f_equal. f_equal. f_equal. rewrite <- seq_shift, map_map. apply map_ext. intros i. rewrite <- app_assoc. reflexivity.
  Qed.
  Lemma find_cnt_ok text : in_alphabet off N text -> aho_find_cnt off a text = rfor (concat (map (allE E) (prefs text))) bump (replicate (ah_n a) 0).
  Proof.
    intros Ht. unfold aho_find_cnt. destruct (find_cnt_gen text 0 [] (replicate (ah_n a) 0) Ht lsuf_start) as (q & _ & Eq). unfold bump in Eq at 1. rewrite Eq.
    unfold prefs. rewrite map_map. cbn [app]. destruct (rfor _ bump _); reflexivity.
  Qed.

  (** *** Texts with other bytes *)
  Lemma bad_split text : ~ in_alphabet off N text -> exists d c rest, text = d ++ c :: rest /\ in_alphabet off N d /\ ~ (off <= c < off + N).
  Proof.
    intros H. induction text as [|c text IH]; [exfalso; apply H; constructor|]. destruct (decide (off <= c < off + N)) as [Hc|Hc].
    - destruct IH as (d & c1 & r & -> & H1 & H2); [intros H'; apply H; constructor; auto|]. exists (c :: d), c1, r. split; [reflexivity|]. split; [constructor; auto|exact H2].
    - exists [], c, text. split; [reflexivity|]. split; [constructor|exact Hc].
  Qed.
  (** A search never diverges, whatever its body does at a node. *)
  Lemma search_panic {B} (g : nat -> B * nat -> res (B * nat)) (h : nat -> B -> res B) :
    (forall c st, g c st = (p ← aho_go off a st.2 c; b ← h p st.1; Ok (b, p))) -> (forall p s b, str !! p = Some s -> h p b <> Diverge) ->
    forall text b p d, str !! p = Some (lsuf d) -> ~ in_alphabet off N text -> rfor text g (b, p) = Panic.
  Proof.
    intros Hg Hh. induction text as [|c text IH]; intros b p d Hp Ht; [exfalso; apply Ht; constructor|]. cbn [rfor]. rewrite Hg. cbn [fst snd].
    destruct (decide (off <= c < off + N)) as [Hc|Hc]; [|rewrite (go_panic p _ c Hp Hc); reflexivity].
    destruct (go_ok p _ c Hp Hc) as (q & -> & Q). cbn [mbind res_bind]. apply lsuf_step in Q. specialize (Hh q _ b Q). destruct (h q b) as [b'| |]; [|reflexivity|contradiction].
    cbn [mbind res_bind]. eapply IH; [exact Q|]. intros H. apply Ht. constructor; auto.
  Qed.
  Lemma bump_total k cnt : bump k cnt <> Diverge.
  Proof. unfold bump, vget. destruct (cnt !! k) as [x|]; [|discriminate]. cbn [mbind res_bind]. unfold vset. destruct (decide _); discriminate. Qed.
  Lemma rfor_total {A0 B} (l : list A0) (f : A0 -> B -> res B) : (forall x b, f x b <> Diverge) -> forall b, rfor l f b <> Diverge.
  Proof. intros H. induction l as [|x l IH]; intros b; cbn; [discriminate|]. specialize (H x b). destruct (f x b); cbn; [apply IH|discriminate|contradiction]. Qed.

  Lemma find_panic text : ~ in_alphabet off N text -> aho_find off a text = Panic.
  Proof.
    intros Ht. unfold aho_find. rewrite (search_panic _ (fun p r => x ← vget (ah_nodes a) p; Ok (r ++ [nd_end x]))) with (d := []); [reflexivity| | |apply lsuf_start|exact Ht].
    - intros c [r p]. cbn [fst snd]. destruct (aho_go off a p c); cbn [mbind res_bind]; [|reflexivity|reflexivity]. destruct (vget _ _); reflexivity.
    - intros p s b Hp. destruct (ak_node _ _ _ _ _ A p s Hp) as (nd & N1 & _). rewrite (vget_ok _ _ _ N1). discriminate.
  Qed.
  Lemma find_all_panic text : ~ in_alphabet off N text -> aho_find_all off a text = Panic.
  Proof.
    intros Ht. unfold aho_find_all. rewrite (search_panic _ (fun p r => l ← visit a (fun k l => Ok (l ++ [k])) p []; Ok (r ++ [l]))) with (d := []); [reflexivity| | |apply lsuf_start|exact Ht].
    - intros c [r p]. cbn [fst snd]. destruct (aho_go off a p c); cbn [mbind res_bind]; [|reflexivity|reflexivity]. destruct (visit _ _ _ _); reflexivity.
    - intros p s b Hp. rewrite (visit_ok _ p s _ Hp), rfor_push. discriminate.
  Qed.
  Lemma find_cnt_panic text : ~ in_alphabet off N text -> aho_find_cnt off a text = Panic.
  Proof.
    intros Ht. unfold aho_find_cnt. rewrite (search_panic _ (fun p cnt => visit a bump p cnt)) with (d := []); [reflexivity| | |apply lsuf_start|exact Ht].
    - reflexivity.
    - intros p s b Hp. rewrite (visit_ok _ p s _ Hp). apply rfor_total. intros. apply bump_total.
  Qed.
End search.

(** Counting. *)
Lemma bump_eq j cnt y : cnt !! j = Some y -> bump j cnt = Ok (<[j := y + 1]> cnt).
Proof. intros H. unfold bump. rewrite (vget_ok _ _ _ H). cbn [mbind res_bind]. apply vset_ok. apply lookup_lt_Some in H. exact H. Qed.
Lemma bump_ok : forall l cnt, Forall (fun k => k < length cnt) l ->
  exists r, rfor l bump cnt = Ok r /\ length r = length cnt /\ forall k x, cnt !! k = Some x -> r !! k = Some (x + length (filter (fun j => j = k) l)).
Proof.
  induction l as [|j l IH]; intros cnt Hl; [exists cnt; split; [reflexivity|]; split; [reflexivity|]; intros k x H; cbn; rewrite Nat.add_0_r; exact H|].
  inversion Hl as [|? ? Hj Hl']; subst. cbn [rfor]. destruct (lookup_lt_is_Some_2 cnt j Hj) as [y Hy]. rewrite (bump_eq j cnt y Hy). cbn [mbind res_bind].
  destruct (IH (<[j:=y + 1]> cnt)) as (r & -> & R1 & R2); [rewrite insert_length; exact Hl'|]. rewrite insert_length in R1. exists r. split; [reflexivity|]. split; [exact R1|].
  intros k x Hx. destruct (decide (j = k)) as [->|Hne].
  - rewrite filter_cons_True by reflexivity. rewrite (R2 k (y + 1)) by (apply list_lookup_insert; exact Hj). rewrite Hx in Hy. injection Hy as ->. cbn. f_equal. lia.
  - rewrite filter_cons_False by exact Hne. apply R2. rewrite list_lookup_insert_ne by exact Hne. exact Hx.
Qed.
Lemma bump_panic : forall l cnt, ~ Forall (fun k => k < length cnt) l -> rfor l bump cnt = Panic.
Proof.
  induction l as [|j l IH]; intros cnt Hl; [exfalso; apply Hl; constructor|]. cbn [rfor]. destruct (decide (j < length cnt)) as [Hj|Hj].
  - destruct (lookup_lt_is_Some_2 cnt j Hj) as [y Hy]. rewrite (bump_eq j cnt y Hy). cbn [mbind res_bind]. apply IH. rewrite insert_length. intros H. apply Hl. constructor; auto.
  - assert (bump j cnt = Panic) as -> by (unfold bump; rewrite vget_panic by lia; reflexivity). reflexivity.
Qed.
