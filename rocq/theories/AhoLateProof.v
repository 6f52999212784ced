From Verif Require Import Prelude UtilModel AhoSpec AhoModel AhoStr AhoTrie AhoBuild AhoProof AhoProps AhoLateSpec.

Section late.
  Context (off N : nat) (str : list (list nat)) (E : list nat -> option nat).
  Context (Hroot : str !! 0 = Some []) (Hnd : NoDup str) (Hpre : forall s c, s ++ [c] ∈ str -> s ∈ str) (HE : forall s k, E s = Some k -> s ∈ str).
  Notation T := (fun s => s ∈ str).
  Notation lsuf := (lsuf T _).

  (** A finished automaton whose ends have been changed to L *)
  Record LK (L : list nat -> option nat) (nodes : list node) : Prop := {
    lk_len : length nodes = length str;
    lk_node : forall p s, str !! p = Some s -> exists nd, nodes !! p = Some nd /\ length (nd_next nd) = N /\ nd_end nd = L s /\
      (forall i, i < N -> exists x, nd_next nd !! i = Some x /\ str !! x = Some (lsuf (s ++ [off + i]))) /\ out_ok str E (nd_output nd) s;
    lk_dom : forall s k, E s = Some k -> exists k', L s = Some k' }.
  Lemma AK_LK nodes : AK off N str E nodes -> LK E nodes.
  Proof. intros [A1 A2 A3]. split; [exact A1|exact A2|]. intros s k H. eauto. Qed.
  Lemma LK_ext L L' nodes : (forall s, L s = L' s) -> LK L nodes -> LK L' nodes.
  Proof.
    intros H [A1 A2 A3]. split; [exact A1| |].
    - intros p s Hp. destruct (A2 p s Hp) as (nd & N1 & N2 & N3 & N4). exists nd. rewrite <- H. auto.
    - intros s k Hk. rewrite <- H. eauto.
  Qed.

  Section one.
    Context (L : list nat -> option nat) (a : aho) (A : LK L (ah_nodes a)).
    Lemma late_step p s c : str !! p = Some s -> off <= c < off + N -> lsuf (s ++ [c]) <> [] -> exists q, insert_step off N c (ah_nodes a, p) = Ok (ah_nodes a, q) /\ str !! q = Some (lsuf (s ++ [c])).
    Proof.
      intros Hp Hc Hin. destruct (lk_node _ _ A p s Hp) as (nd & N1 & N2 & N3 & N4 & _). unfold insert_step, letter, nsub. destruct (Nat.leb_spec off c); [|lia]. cbn [mbind res_bind].
      rewrite (vget_ok _ _ _ N1). cbn [mbind res_bind]. destruct (N4 (c - off)) as (x & X1 & X2); [lia|]. rewrite (vget_ok _ _ _ X1). cbn [mbind res_bind]. replace (off + (c - off)) with c in X2 by lia.
      destruct (Nat.eqb_spec x 0) as [->|Hx].
      - exfalso. rewrite Hroot in X2. injection X2 as X2. auto.
      - cbn [mbind res_bind]. rewrite (vget_ok _ _ _ N1). cbn [mbind res_bind]. rewrite (vget_ok _ _ _ X1). cbn [mbind res_bind]. exists x. auto.
    Qed.
    Lemma late_walk : forall s p d, in_alphabet off N s -> (forall t, t `prefix_of` s -> t <> [] -> lsuf (d ++ t) <> []) -> str !! p = Some (lsuf d) ->
      exists q, rfor s (insert_step off N) (ah_nodes a, p) = Ok (ah_nodes a, q) /\ str !! q = Some (lsuf (d ++ s)).
    Proof.
      induction s as [|c s IH]; intros p d Hs Hf Hp; [exists p; rewrite app_nil_r; auto|]. apply Forall_cons in Hs as [Hc Hs]. cbn [rfor].
      assert (Es : lsuf (lsuf d ++ [c]) = lsuf (d ++ [c])) by (symmetry; apply (lsuf_snoc T); [eapply T_nil; eauto|exact Hpre]).
      destruct (late_step p _ c Hp Hc) as (q & -> & Q); [rewrite Es; apply Hf; [exists s; reflexivity|discriminate]|]. cbn [mbind res_bind]. rewrite Es in Q.
      destruct (IH q (d ++ [c]) Hs) as (q2 & -> & Q2); [|exact Q|].
      - intros t [r ->] Hne. rewrite <- app_assoc. apply Hf; [exists r; reflexivity|discriminate].
      - exists q2. rewrite <- app_assoc in Q2. auto.
    Qed.
    Lemma late_insert s i : s <> [] -> in_alphabet off N s -> (forall t, t `prefix_of` s -> t <> [] -> lsuf t <> []) ->
      exists a', aho_insert off N a s i = Ok a' /\ ah_n a' = ah_n a /\ LK (fun t => if decide (lsuf s = t) then Some i else L t) (ah_nodes a').
    Proof.
      intros Hne Hs Hf. unfold aho_insert. destruct (Nat.eqb_spec (length s) 0) as [E0|_]; [destruct s; [contradiction|discriminate]|]. cbn [negb rassert mbind res_bind].
      destruct (late_walk s 0 [] Hs Hf) as (q & -> & Q); [rewrite Hroot; f_equal; symmetry; apply lsuf_in; eapply T_nil; eauto|]. cbn [mbind res_bind app] in *.
      destruct (lk_node _ _ A q _ Q) as (nd & N1 & N2 & N3 & N4 & N5). rewrite (vget_ok _ _ _ N1). cbn [mbind res_bind]. assert (Hq : q < length (ah_nodes a)) by (apply lookup_lt_Some in N1; exact N1).
      rewrite vset_ok by exact Hq. cbn [mbind res_bind]. eexists. split; [reflexivity|]. split; [reflexivity|]. cbn [ah_nodes]. split.
      - rewrite insert_length. apply A.
      - intros p t Hp. destruct (decide (p = q)) as [->|Hpq].
        + assert (t = lsuf s) as -> by congruence. eexists. split; [apply list_lookup_insert; exact Hq|]. cbn. rewrite decide_True by reflexivity. auto.
        + destruct (lk_node _ _ A p t Hp) as (nd' & M1 & M2 & M3 & M4). exists nd'. rewrite list_lookup_insert_ne by auto. split; [exact M1|]. split; [exact M2|]. split; [|exact M4].
          rewrite decide_False; [exact M3|]. intros <-. apply Hpq. eapply NoDup_lookup; eauto.
      - intros t k Hk. destruct (decide (lsuf s = t)); [eauto|]. eapply lk_dom; eauto.
    Qed.

    (** Searches *)
    Lemma go_late p s c : str !! p = Some s -> off <= c < off + N -> exists q, aho_go off a p c = Ok q /\ str !! q = Some (lsuf (s ++ [c])).
    Proof.
      intros Hp Hc. destruct (lk_node _ _ A p s Hp) as (nd & N1 & N2 & N3 & N4 & _). unfold aho_go, letter, nsub. rewrite (vget_ok _ _ _ N1). cbn [mbind res_bind].
      destruct (Nat.leb_spec off c); [|lia]. cbn [mbind res_bind]. destruct (N4 (c - off)) as (x & X1 & X2); [lia|]. exists x. split; [apply vget_ok; exact X1|].
      replace (off + (c - off)) with c in X2 by lia. exact X2.
    Qed.
    Definition F (u : list nat) : option nat := match E u with Some _ => L u | None => None end.
    Definition allF (s : list nat) : list nat := match s with [] => [] | _ :: t => omap F (suffixes t) end.
    Definition allL (s : list nat) : list nat := match L s with Some k => [k] | None => [] end ++ allF s.
    Lemma omapF_unfold s : omap F (suffixes s) = match F s with Some k => [k] | None => [] end ++ allF s.
    Proof. destruct s; cbn; destruct (F _); reflexivity. Qed.
    Lemma allF_outp s : allF s = match outp E s with Some t => match L t with Some k => k :: allF t | None => [] end | None => [] end.
    Proof.
      assert (D : forall u k, E u = Some k -> exists k', L u = Some k' /\ F u = Some k'). { intros u k Hk. destruct (lk_dom _ _ A u k Hk) as (k' & Hk'). exists k'. unfold F. rewrite Hk. auto. }
      destruct s as [|c s]; cbn [allF outp]; [reflexivity|]. clear c. induction s as [|c s IH]; rewrite omapF_unfold, fsuf_unfold.
      - destruct (E []) eqn:Ek; [destruct (D _ _ Ek) as (k' & -> & ->); reflexivity|]. unfold F. rewrite Ek. reflexivity.
      - destruct (E (c :: s)) eqn:Ek; [destruct (D _ _ Ek) as (k' & -> & ->); reflexivity|]. unfold F at 1. rewrite Ek. cbn [app]. exact IH.
    Qed.
    Lemma chain_late {B} (f : nat -> B -> res B) : forall fuel s o acc, out_ok str E o s -> length s < fuel -> rloop fuel (chain_step a f) (acc, o) = rfor (allF s) f acc.
    Proof.
      induction fuel as [|fuel IH]; intros s o acc Ho Hl; [lia|]. cbn [rloop]. rewrite allF_outp. destruct o as [x|]; cbn [out_ok] in Ho.
      - destruct Ho as (t & Ht & Hx). rewrite Ht. destruct (lk_node _ _ A x t Hx) as (nd & N1 & N2 & N3 & N4 & N5). change (chain_step a f (acc, Some x)) with
          (nd ← vget (ah_nodes a) x; k ← runwrap (nd_end nd); acc ← f k acc; Ok (inl (acc, nd_output nd) : (B * option nat) + B)).
        rewrite (vget_ok _ _ _ N1). cbn [mbind res_bind].
        rewrite N3. pose proof (outp_length E s t Ht) as Hlt. assert (exists k, L t = Some k) as [k Hk].
        { destruct s as [|c s]; [discriminate|]. cbn in Ht. apply fsuf_Some in Ht as [_ [k Hk]]. eapply lk_dom; eauto. }
        rewrite Hk. cbn [runwrap mbind res_bind rfor]. destruct (f k acc) as [acc'| |]; cbn [mbind res_bind]; [|reflexivity|reflexivity]. apply IH; [exact N5|lia].
      - rewrite Ho. reflexivity.
    Qed.
    Lemma visit_late {B} (f : nat -> B -> res B) p s acc : str !! p = Some s -> visit a f p acc = rfor (allL s) f acc.
    Proof.
      intros Hp. unfold visit. destruct (lk_node _ _ A p s Hp) as (nd & N1 & N2 & N3 & N4 & N5). rewrite (vget_ok _ _ _ N1). cbn [mbind res_bind].
      rewrite N3. unfold allL. pose proof (str_short str Hpre p s Hp). destruct (L s) as [k|]; cbn [app rfor].
      - destruct (f k acc) as [acc'| |]; cbn [mbind res_bind]; [|reflexivity|reflexivity]. apply chain_late; [exact N5|]. rewrite (lk_len _ _ A). lia.
      - cbn [mbind res_bind]. apply chain_late; [exact N5|]. rewrite (lk_len _ _ A). lia.
    Qed.
    Lemma lsuf_next d c q : str !! q = Some (lsuf (lsuf d ++ [c])) -> str !! q = Some (lsuf (d ++ [c])).
    Proof. intros ->. f_equal. symmetry. apply (lsuf_snoc T); [eapply T_nil; eauto|exact Hpre]. Qed.
    Lemma lsuf_begin : str !! 0 = Some (lsuf []).
    Proof. rewrite Hroot. f_equal. symmetry. apply lsuf_in. eapply T_nil; eauto. Qed.
    Lemma late_char text d c rest : in_alphabet off N text -> text = d ++ c :: rest -> off <= c < off + N.
    Proof. intros Ht Et. rewrite Et in Ht. apply Forall_app in Ht as [_ Hc]. inversion Hc; auto. Qed.
    Lemma find_late text : in_alphabet off N text -> aho_find off a text = Ok (map (fun t => L (lsuf t)) (prefs text)).
    Proof.
      intros Ht. unfold aho_find. match goal with |- (rfor text ?b ?i ≫= _) = _ => destruct (rfor_inv (fun d (st : list (option nat) * nat) =>
        st.1 = map (fun t => L (lsuf t)) (prefs d) /\ str !! st.2 = Some (lsuf d)) text b i) as ([r p] & -> & H1 & _) end.
      - split; [reflexivity|apply lsuf_begin].
      - intros d c rest [r p] Et [H1 H2]. cbn [fst snd] in *. destruct (go_late p _ c H2 (late_char _ _ _ _ Ht Et)) as (q & -> & Q). cbn [mbind res_bind]. apply lsuf_next in Q.
        destruct (lk_node _ _ A q _ Q) as (nd & N1 & N2 & N3 & _). rewrite (vget_ok _ _ _ N1). cbn [mbind res_bind]. eexists. split; [reflexivity|]. cbn [fst snd].
        split; [|exact Q]. rewrite prefs_snoc, map_app, H1, N3. reflexivity.
      - cbn [mbind res_bind fst] in *. rewrite H1. reflexivity.
    Qed.
    Lemma find_all_late text : in_alphabet off N text -> aho_find_all off a text = Ok (map (fun t => allL (lsuf t)) (prefs text)).
    Proof.
      intros Ht. unfold aho_find_all. match goal with |- (rfor text ?b ?i ≫= _) = _ => destruct (rfor_inv (fun d (st : list (list nat) * nat) =>
        st.1 = map (fun t => allL (lsuf t)) (prefs d) /\ str !! st.2 = Some (lsuf d)) text b i) as ([r p] & -> & H1 & _) end.
      - split; [reflexivity|apply lsuf_begin].
      - intros d c rest [r p] Et [H1 H2]. cbn [fst snd] in *. destruct (go_late p _ c H2 (late_char _ _ _ _ Ht Et)) as (q & -> & Q). cbn [mbind res_bind]. apply lsuf_next in Q.
        rewrite (visit_late _ q _ _ Q), rfor_push. cbn [mbind res_bind app]. eexists. split; [reflexivity|]. cbn [fst snd].
        split; [|exact Q]. rewrite prefs_snoc, map_app, H1. reflexivity.
      - cbn [mbind res_bind fst] in *. rewrite H1. reflexivity.
    Qed.
    Lemma find_cnt_late text : in_alphabet off N text -> aho_find_cnt off a text = rfor (concat (map (fun t => allL (lsuf t)) (prefs text))) bump (replicate (ah_n a) 0).
    Proof.
      intros Ht. unfold aho_find_cnt. fold bump.
      assert (G : forall text p d cnt, in_alphabet off N text -> str !! p = Some (lsuf d) -> exists q, str !! q = Some (lsuf (d ++ text)) /\
        rfor text (fun c st => p ← aho_go off a st.2 c; cnt ← visit a bump p st.1; Ok (cnt, p)) (cnt, p)
        = (cnt ← rfor (concat (map (fun i => allL (lsuf (d ++ take (i + 1) text))) (seq 0 (length text)))) bump cnt; Ok (cnt, q))).
      { clear text Ht. induction text as [|c text IH]; intros p d cnt Ht Hp.
        - exists p. rewrite app_nil_r. auto.
        - inversion Ht as [|? ? Hc Ht']; subst. destruct (go_late p _ c Hp Hc) as (q & Eg & Q). apply lsuf_next in Q.
          destruct (IH q (d ++ [c]) cnt Ht' Q) as (q2 & Q2 & _). exists q2. rewrite <- app_assoc in Q2. split; [exact Q2|].
          cbn [rfor fst snd]. rewrite Eg. cbn [mbind res_bind]. rewrite (visit_late _ q _ _ Q).
          cbn [length seq map concat]. rewrite rfor_app. change (take (0 + 1) (c :: text)) with [c].
          destruct (rfor (allL (lsuf (d ++ [c]))) bump cnt) as [cnt'| |]; cbn [mbind res_bind]; [|reflexivity|reflexivity].
          destruct (IH q (d ++ [c]) cnt' Ht' Q) as (q3 & Q3 & ->). rewrite <- app_assoc in Q3. cbn [app] in Q3. assert (q3 = q2) as -> by (eapply NoDup_lookup; eauto).
          f_equal. f_equal. f_equal. rewrite <- seq_shift, map_map. apply map_ext. intros i. rewrite <- app_assoc. reflexivity. }
      destruct (G text 0 [] (replicate (ah_n a) 0) Ht lsuf_begin) as (q & _ & Eq). rewrite Eq.
      unfold prefs. rewrite map_map. cbn [app]. destruct (rfor _ bump _); reflexivity.
    Qed.
  End one.
End late.

(** *** In terms of the inserts *)
Section ins.
  Context (off N n : nat) (ins : list (list nat * nat)) (Hg : Forall (insertable off N) ins).
  Context (str : list (list nat)) (Hroot : str !! 0 = Some []) (Hnd : NoDup str) (Hpre : forall s c, s ++ [c] ∈ str -> s ∈ str)
    (HE : forall s k, last_index ins s = Some k -> s ∈ str) (Hl : forall s, s ∈ str <-> live ins s).
  Notation T := (fun s => s ∈ str).
  Notation lsuf := (lsuf T _).
  Lemma longest_lsuf t : longest_live ins t (lsuf t).
  Proof.
    split; [apply lsuf_suffix|]. split; [apply Hl, lsuf_T, (T_nil str Hroot)|]. intros s' H1 H2. apply suffix_length. apply lsuf_max; [exact H1|]. apply Hl. exact H2.
  Qed.
  Lemma longest_unique t s s' : longest_live ins t s -> longest_live ins t s' -> s = s'.
  Proof.
    intros ((p & E1) & A2 & A3) ((p' & E2) & B2 & B3). assert (length s = length s') as El by (apply Nat.le_antisymm; [apply B3|apply A3]; try assumption; [exists p|exists p']; assumption).
    rewrite E1 in E2. apply app_inj_2 in E2; [tauto|exact El].
  Qed.
  Lemma walkable_lsuf s : walkable ins s -> forall t, t `prefix_of` s -> t <> [] -> lsuf t <> [].
  Proof. intros H t Ht Hne E. destruct (H t Ht Hne) as (u & U1 & U2 & U3). apply Hne. exfalso. assert (Hs : u `suffix_of` lsuf t) by (apply lsuf_max; [exact U2|apply Hl; right; exact U3]). rewrite E in Hs. apply suffix_nil_inv in Hs. contradiction. Qed.
  Lemma lands_exists late : exists landed, lands ins late landed.
  Proof. induction late as [|[s i] late [landed IH]]; [exists []; constructor|]. exists ((lsuf s, i) :: landed). constructor; [|exact IH]. split; [apply longest_lsuf|reflexivity]. Qed.
  Lemma lates_ok : forall late landed done a, Forall (insertable off N) late -> Forall (fun x => walkable ins x.1) late -> lands ins late landed ->
    ah_n a = n -> LK off N str (last_index ins) (last_index (ins ++ done)) (ah_nodes a) ->
    exists a', aho_inserts off N a late = Ok a' /\ ah_n a' = n /\ LK off N str (last_index ins) (last_index (ins ++ done ++ landed)) (ah_nodes a').
  Proof.
    induction late as [|[s i] late IH]; intros landed done a Hi Hk Hd Hn A.
    - inversion Hd; subst. exists a. rewrite app_nil_r. auto.
    - apply Forall_cons in Hi as [[I1 I2] Hi]. apply Forall_cons in Hk as [K Hk]. inversion Hd as [|? [t j] ? landed' [D1 D2] Hd']; subst. cbn [fst snd] in *. subst j.
      rewrite (longest_unique _ _ _ D1 (longest_lsuf s)) in *. destruct (late_insert off N str (last_index ins) Hroot Hnd Hpre _ a A s i I1 I2 (walkable_lsuf s K)) as (a1 & E1 & N1 & A1).
      destruct (IH landed' (done ++ [(lsuf s, i)]) a1 Hi Hk Hd') as (a' & E2 & N2 & A2); [congruence| |].
      { eapply LK_ext; [|exact A1]. intros u. rewrite app_assoc, last_index_snoc. reflexivity. }
      exists a'. split; [|split; [congruence|]].
      + unfold aho_inserts in *. cbn [rfor fst snd]. rewrite E1. cbn [mbind res_bind]. exact E2.
      + rewrite <- app_assoc in A2. exact A2.
  Qed.
  Lemma allL_late landed d : allL (last_index ins) (last_index (ins ++ landed)) (lsuf d) = late_matches ins landed d (lsuf d).
  Proof.
    assert (Sh : forall d s, length d < length s -> omap (F (last_index ins) (last_index (ins ++ landed))) (suffixes d) =
      omap (fun u => if decide (u = s) then last_index (ins ++ landed) u else match last_index ins u with Some _ => last_index (ins ++ landed) u | None => None end) (suffixes d)).
    { intros d0 s Hs. induction d0 as [|c d0 IH]; cbn [suffixes omap list_omap].
      - rewrite decide_False by (intros <-; cbn in Hs; lia). reflexivity.
      - rewrite decide_False by (intros <-; cbn in Hs; lia). unfold F at 1. destruct (last_index ins (c :: d0)) as [k|]; [destruct (last_index (ins ++ landed) (c :: d0))|]; rewrite IH by (cbn in Hs; lia); reflexivity. }
    induction d as [|c d IH].
    - rewrite lsuf_in by (eapply T_nil; eauto). unfold allL, late_matches. cbn. destruct (last_index (ins ++ landed) []); reflexivity.
    - destruct (decide (T (c :: d))) as [H|H].
      + rewrite lsuf_in by exact H. unfold allL, late_matches. cbn [allF suffixes omap list_omap]. rewrite decide_True by reflexivity. rewrite (Sh d (c :: d)) by (cbn; lia). destruct (last_index (ins ++ landed) (c :: d)); reflexivity.
      + rewrite (lsuf_cons T) by exact H. rewrite IH. unfold late_matches. cbn [suffixes omap list_omap]. assert (Hn : last_index ins (c :: d) = None).
        { destruct (last_index ins (c :: d)) as [k|] eqn:Ek; [exfalso; apply H, (HE _ k); exact Ek|reflexivity]. }
        rewrite Hn, decide_False; [reflexivity|]. intros Ec. destruct (longest_lsuf d) as [[k Hk] _]. rewrite <- Ec in Hk. apply (f_equal length) in Hk. rewrite app_length in Hk. cbn in Hk. lia.
  Qed.
End ins.
