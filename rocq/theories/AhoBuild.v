(** Aho-Corasick: build turns the trie into the automaton. *)
From Verif Require Import Prelude UtilModel AhoSpec AhoModel AhoStr AhoTrie.

Section build.
  Context (off N : nat) (str : list (list nat)) (E : list nat -> option nat).
  Context (Hroot : str !! 0 = Some []) (Hnd : NoDup str) (Hpre : forall s c, s ++ [c] ∈ str -> s ∈ str)
    (Halph : forall s, s ∈ str -> in_alphabet off N s) (HE : forall s k, E s = Some k -> s ∈ str) (HE0 : E [] = None).
  Notation T := (fun s => s ∈ str).
  Notation lsuf := (lsuf T _).
  Notation lps := (lps T _).
  Notation outp := (outp E).

  Lemma T_nil : [] ∈ str.
  Proof. eapply elem_of_list_lookup_2. exact Hroot. Qed.
  Lemma id_exists s : s ∈ str -> exists p, str !! p = Some s.
  Proof. apply elem_of_list_lookup_1. Qed.
  Lemma id_inj p q s : str !! p = Some s -> str !! q = Some s -> p = q.
  Proof. apply NoDup_lookup. exact Hnd. Qed.
  Lemma id_0 p : str !! p = Some [] -> p = 0.
  Proof. intros H. eapply id_inj; eauto. Qed.

  Definition out_ok (o : option nat) (s : list nat) : Prop :=
    match o with None => outp s = None | Some x => exists t, outp s = Some t /\ str !! x = Some t end.

  (** full p i: the transition of node p by letter i is final; disc p: the links of node p are final. *)
  Record NOK (full : nat -> nat -> Prop) (disc : nat -> Prop) (nodes : list node) : Prop := {
    nk_len : length nodes = length str;
    nk_node : forall p s, str !! p = Some s -> exists nd, nodes !! p = Some nd /\ length (nd_next nd) = N /\ nd_end nd = E s /\
      (forall i, i < N -> exists x, nd_next nd !! i = Some x /\
         (full p i -> str !! x = Some (lsuf (s ++ [off + i]))) /\ (~ full p i -> trie_entry off str s i x)) /\
      (disc p -> str !! nd_back nd = Some (lps s) /\ out_ok (nd_output nd) s) }.

  Lemma NOK_ext (f1 f2 : nat -> nat -> Prop) (d1 d2 : nat -> Prop) nodes :
    (forall p i, i < N -> f1 p i <-> f2 p i) -> (forall p, d2 p -> d1 p) -> NOK f1 d1 nodes -> NOK f2 d2 nodes.
  Proof.
    intros Hf Hd [Hl Hn]. split; [exact Hl|]. intros p s Hp. destruct (Hn p s Hp) as (nd & N1 & N2 & N3 & N4 & N5).
    exists nd. split; [exact N1|]. split; [exact N2|]. split; [exact N3|]. split; [|auto]. intros i Hi. destruct (N4 i Hi) as (x & X1 & X2 & X3).
    exists x. rewrite <- (Hf p i Hi). auto.
  Qed.

  Definition len (p : nat) : nat := length (default [] (str !! p)).
  Definition par (p : nat) (pp : nat) : Prop := exists s c, str !! p = Some (s ++ [c]) /\ str !! pp = Some s.

  (** D: the nodes taken from the queue so far; q: the queue. *)
  Record QI (D q : list nat) : Prop := {
    q_in : forall p, p ∈ q \/ p ∈ D -> p < length str /\ p <> 0;
    q_nodup : NoDup (q ++ D);
    q_sorted : forall i j a b, q !! i = Some a -> q !! j = Some b -> i <= j -> len a <= len b;
    q_near : forall a b, a ∈ q -> b ∈ q -> len b <= len a + 1;
    q_cover : forall p pp, par p pp -> pp = 0 \/ pp ∈ D -> p ∈ q \/ p ∈ D;
    q_parent : forall p, p ∈ q \/ p ∈ D -> exists pp, par p pp /\ (pp = 0 \/ pp ∈ D) }.
  Definition fullD (D : list nat) (p i : nat) : Prop := p = 0 \/ p ∈ D.
  Definition discD (D q : list nat) (p : nat) : Prop := p = 0 \/ p ∈ q \/ p ∈ D.

  Lemma len_Some p s : str !! p = Some s -> len p = length s.
  Proof. intros H. unfold len. rewrite H. reflexivity. Qed.
  Lemma str_cases p s : str !! p = Some s -> p = 0 /\ s = [] \/ exists pp t c, s = t ++ [c] /\ str !! pp = Some t /\ par p pp.
  Proof.
    intros H. destruct s as [|c t _] using rev_ind; [left; split; [apply id_0; exact H|reflexivity]|]. right.
    destruct (id_exists t) as (pp & Hpp); [eapply Hpre, elem_of_list_lookup_2; eauto|]. exists pp, t, c. split; [reflexivity|]. split; [exact Hpp|]. exists t, c. auto.
  Qed.

  (** When u is the first of the queue, all shorter nodes are done, and all nodes of the same length are known. *)
  Lemma shorter_done D u q : QI D (u :: q) -> forall k p s, str !! p = Some s -> length s = k -> k < len u -> p = 0 \/ p ∈ D.
  Proof.
    intros Q k. induction k as [k IH] using lt_wf_ind. intros p s Hp Hk Hlt. destruct (str_cases p s Hp) as [[-> _]|(pp & t & c & -> & Hpp & Hpar)]; [auto|].
    rewrite app_length in Hk. cbn in Hk. assert (pp = 0 \/ pp ∈ D) as Hdone by (eapply (IH (length t)); eauto; lia).
    destruct (q_cover _ _ Q p pp Hpar Hdone) as [Hq|Hq]; [|auto]. exfalso. apply elem_of_list_lookup_1 in Hq as (j & Hj).
    pose proof (q_sorted _ _ Q 0 j u p eq_refl Hj ltac:(lia)) as Hle. rewrite (len_Some p _ Hp), app_length in Hle. cbn in Hle. lia.
  Qed.
  Lemma same_known D u q : QI D (u :: q) -> forall p s, str !! p = Some s -> length s <= len u -> discD D (u :: q) p.
  Proof.
    intros Q p s Hp Hle. destruct (str_cases p s Hp) as [[-> _]|(pp & t & c & -> & Hpp & Hpar)]; [left; reflexivity|]. right.
    apply (q_cover _ _ Q p pp Hpar). eapply shorter_done; eauto. rewrite app_length in Hle. cbn in Hle. lia.
  Qed.

  (** *** One turn of the while loop *)
  Section turn.
    Context (D q : list nat) (u : nat) (Q : QI D (u :: q)) (s : list nat) (Hu : str !! u = Some s).
    Lemma u_facts : u <> 0 /\ u ∉ D /\ u ∉ q /\ exists a t, s = a :: t.
    Proof.
      destruct (q_in _ _ Q u) as [_ H0]; [left; left|]. pose proof (q_nodup _ _ Q) as Hn. cbn in Hn. apply NoDup_cons in Hn as [Hn _]. rewrite elem_of_app in Hn.
      split; [exact H0|]. split; [tauto|]. split; [tauto|]. destruct s as [|a t]; [|eauto]. exfalso. apply H0, id_0, Hu.
    Qed.
    (** The state after the letters below i. *)
    Definition fullT (i p j : nat) : Prop := fullD D p j \/ p = u /\ j < i.
    Definition turn_inv (i : nat) (st : list node * list nat) : Prop :=
      exists ch, st.2 = q ++ ch /\ NoDup ch /\ (forall x, x ∈ ch <-> exists j, j < i /\ str !! x = Some (s ++ [off + j])) /\
        NOK (fullT i) (fun p => discD D (u :: q) p \/ p ∈ ch) st.1.

    Lemma child_new x j : str !! x = Some (s ++ [off + j]) -> x <> 0 /\ x <> u /\ ~ discD D (u :: q) x.
    Proof.
      intros Hx. assert (x <> 0) as H0 by (intros ->; rewrite Hroot in Hx; injection Hx as Hx; destruct s; discriminate).
      split; [exact H0|]. split; [intros ->; rewrite Hu in Hx; injection Hx as Hx; apply (f_equal length) in Hx; rewrite app_length in Hx; cbn in Hx; lia|].
      intros [->|H]; [contradiction|]. destruct (q_parent _ _ Q x H) as (pp & (t & c & H1 & H2) & H3). rewrite Hx in H1. injection H1 as H1. apply app_inj_tail in H1 as [<- _].
      assert (pp = u) as -> by (eapply id_inj; eauto). destruct u_facts as (U1 & U2 & _). destruct H3; contradiction.
    Qed.

    Lemma turn_step i nodes q1 : i < N -> turn_inv i (nodes, q1) -> exists st', build_edge u i (nodes, q1) = Ok st' /\ turn_inv (i + 1) st'.
    Proof.
      intros Hi (ch & Hq1 & Hch & Hchi & NK). cbn [fst snd] in *. subst q1. destruct u_facts as (U0 & UD & Uq & a & t & Es).
      destruct (nk_node _ _ _ NK u s Hu) as (nd & N1 & N2 & N3 & N4 & N5). destruct N5 as [B1 B2]; [left; right; left; left|].
      destruct (id_exists (lps s) (lps_T T _ T_nil s)) as (b & Hb). assert (nd_back nd = b) as Eb by (eapply id_inj; eauto).
      assert (length (lps s) < length s) as Hblen by (rewrite Es; pose proof (lps_length T _ a t); cbn [length]; lia).
      assert (b = 0 \/ b ∈ D) as Hbd by (eapply shorter_done; eauto; rewrite (len_Some u s Hu); exact Hblen).
      destruct (nk_node _ _ _ NK b _ Hb) as (bd & C1 & C2 & C3 & C4 & _). destruct (C4 i Hi) as (fail & F1 & F2 & _).
      assert (str !! fail = Some (lsuf (lps s ++ [off + i]))) as Hfail by (apply F2; left; exact Hbd). clear F2.
      destruct (N4 i Hi) as (v & V1 & _ & V2). assert (trie_entry off str s i v) as Hv.
      { apply V2. intros [[?|?]|[_ ?]]; [contradiction|contradiction|lia]. } clear V2.
      unfold build_edge. rewrite (vget_ok _ _ _ N1). cbn [mbind res_bind]. rewrite Eb, (vget_ok _ _ _ C1). cbn [mbind res_bind]. rewrite (vget_ok _ _ _ F1). cbn [mbind res_bind].
      rewrite (vget_ok _ _ _ V1). cbn [mbind res_bind]. assert (u < length nodes) as Hul by (apply lookup_lt_Some in N1; exact N1).
      destruct (Nat.eqb_spec v 0) as [->|Hv0].
      - destruct Hv as [[_ Hni]|[? _]]; [|lia]. rewrite vset_ok by lia. cbn [mbind res_bind]. rewrite vset_ok by exact Hul. cbn [mbind res_bind].
        eexists. split; [reflexivity|]. exists ch. cbn [fst snd]. split; [reflexivity|]. split; [exact Hch|]. split.
        + intros x. rewrite Hchi. split; intros (j & J1 & J2); exists j; (split; [|exact J2]); [lia|]. destruct (decide (j = i)) as [->|]; [|lia].
          exfalso. apply Hni. eapply elem_of_list_lookup_2; eauto.
        + split; [rewrite insert_length; apply NK|]. intros p x Hp. destruct (decide (p = u)) as [->|Hpu].
          * rewrite Hu in Hp. injection Hp as <-. rewrite list_lookup_insert by exact Hul. eexists. split; [reflexivity|]. cbn. rewrite insert_length.
            split; [exact N2|]. split; [exact N3|]. split; [|auto]. intros j Hj. destruct (decide (j = i)) as [->|Hji].
            -- exists fail. split; [apply list_lookup_insert; lia|]. split; [|intros H; exfalso; apply H; right; split; [reflexivity|lia]].
               intros _. rewrite Hfail. f_equal. rewrite Es in Hni |- *. symmetry. apply go_fail; [exact T_nil|exact Hpre|exact Hni].
            -- rewrite list_lookup_insert_ne by auto. destruct (N4 j Hj) as (y & Y1 & Y2 & Y3). exists y. split; [exact Y1|]. split.
               ++ intros [H|[_ H]]; apply Y2; [left; exact H|right; split; [reflexivity|lia]].
               ++ intros H. apply Y3. intros [H'|[_ H']]; apply H; [left; exact H'|right; split; [reflexivity|lia]].
          * rewrite list_lookup_insert_ne by auto. destruct (nk_node _ _ _ NK p x Hp) as (pd & P1 & P2 & P3 & P4 & P5). exists pd.
            split; [exact P1|]. split; [exact P2|]. split; [exact P3|]. split; [|exact P5]. intros j Hj. destruct (P4 j Hj) as (y & Y1 & Y2 & Y3). exists y. split; [exact Y1|].
            split; [intros [H|[-> _]]; [apply Y2; left; exact H|contradiction]|]. intros H. apply Y3. intros [H'|[-> _]]; [apply H; left; exact H'|contradiction].
      - destruct Hv as [[? _]|[_ Hv]]; [lia|]. destruct (child_new v i Hv) as (_ & Hvu & Hvd).
        assert (lps (s ++ [off + i]) = lsuf (lps s ++ [off + i])) as Elps by (rewrite Es; apply lps_snoc; [exact T_nil|exact Hpre]).
        assert (length (lsuf (lps s ++ [off + i])) <= length s) as Hfl.
        { etrans; [apply lsuf_length|]. rewrite app_length. cbn. lia. }
        assert (fail <> v) as Hfv. { intros ->. rewrite Hv in Hfail. injection Hfail as Hfail. rewrite <- Hfail, app_length in Hfl. cbn in Hfl. lia. }
        assert (discD D (u :: q) fail) as Hfd by (eapply same_known; eauto; rewrite (len_Some u s Hu); exact Hfl).
        assert (v ∉ ch) as Hvch by (rewrite Hchi; intros (j & J1 & J2); rewrite Hv in J2; injection J2 as J2; apply app_inj_tail in J2 as [_ J2]; lia).
        destruct (nk_node _ _ _ NK v _ Hv) as (vd & G1 & G2 & G3 & G4 & _). rewrite (vget_ok _ _ _ G1). cbn [mbind res_bind].
        assert (v < length nodes) as Hvl by (apply lookup_lt_Some in G1; exact G1). rewrite vset_ok by exact Hvl. cbn [mbind res_bind].
        destruct (nk_node _ _ _ NK fail _ Hfail) as (fd & K1 & K2 & K3 & K4 & K5). destruct K5 as [K5 K6]; [left; exact Hfd|].
        rewrite (vget_ok _ fail fd) by (rewrite list_lookup_insert_ne by auto; exact K1). cbn [mbind res_bind].
        rewrite (vget_ok _ v _) by (apply list_lookup_insert; exact Hvl). cbn [mbind res_bind nd_back nd_end nd_nmatches nd_next].
        rewrite vset_ok by (rewrite insert_length; exact Hvl). cbn [mbind res_bind]. rewrite list_insert_insert.
        eexists. split; [reflexivity|]. exists (ch ++ [v]). cbn [fst snd]. split; [symmetry; apply app_assoc|]. split.
        { apply NoDup_app. split; [exact Hch|]. split; [|apply NoDup_singleton]. intros x Hx Hx'. apply elem_of_list_singleton in Hx' as ->. contradiction. }
        split.
        + intros x. rewrite elem_of_app, elem_of_list_singleton, Hchi. split.
          * intros [(j & J1 & J2)| ->]; [exists j; split; [lia|exact J2]|exists i; split; [lia|exact Hv]].
          * intros (j & J1 & J2). destruct (decide (j = i)) as [->|Hji]; [right; eapply id_inj; eauto|left; exists j; split; [lia|exact J2]].
        + split; [rewrite insert_length; apply NK|]. intros p x Hp. destruct (decide (p = v)) as [->|Hpv].
          * rewrite Hv in Hp. injection Hp as <-. rewrite list_lookup_insert by exact Hvl. eexists. split; [reflexivity|]. cbn.
            split; [exact G2|]. split; [exact G3|]. split.
            -- intros j Hj. destruct (G4 j Hj) as (y & Y1 & Y2 & Y3). exists y. split; [exact Y1|]. split; [intros [H|[-> _]]; [apply Y2; left; exact H|contradiction]|].
               intros H. apply Y3. intros [H'|[-> _]]; [apply H; left; exact H'|contradiction].
            -- intros _. split; [rewrite Hfail, Elps; reflexivity|]. assert (outp (s ++ [off + i]) = fsuf E (lsuf (lps s ++ [off + i]))) as Eo.
               { rewrite Es at 1. rewrite <- Elps, Es. cbn [app]. apply (outp_lps T _ T_nil E HE). }
               unfold out_ok. rewrite Eo, fsuf_unfold, K3. destruct (E (lsuf (lps s ++ [off + i]))); [eauto|exact K6].
          * rewrite list_lookup_insert_ne by auto. destruct (nk_node _ _ _ NK p x Hp) as (pd & P1 & P2 & P3 & P4 & P5). exists pd.
            split; [exact P1|]. split; [exact P2|]. split; [exact P3|]. split.
            -- intros j Hj. destruct (P4 j Hj) as (y & Y1 & Y2 & Y3). exists y. split; [exact Y1|]. split.
               ++ intros H. destruct (decide (p = u /\ j = i)) as [[-> ->]|Hne].
                  ** rewrite Hu in Hp. injection Hp as <-. rewrite N1 in P1. injection P1 as <-. rewrite V1 in Y1. injection Y1 as <-.
                     rewrite Hv. f_equal. symmetry. apply lsuf_in. eapply elem_of_list_lookup_2; eauto.
                  ** apply Y2. destruct H as [H|[H1 H2]]; [left; exact H|right; split; [exact H1|lia]].
               ++ intros H. apply Y3. intros [H'|[H1 H2]]; apply H; [left; exact H'|right; split; [exact H1|lia]].
            -- intros H. apply P5. destruct H as [H|H]; [auto|]. apply elem_of_app in H as [H|H]; [auto|]. apply elem_of_list_singleton in H. contradiction.
    Qed.

    Lemma turn_ok nodes : NOK (fullD D) (discD D (u :: q)) nodes ->
      exists nodes' ch, rfor (range 0 N) (build_edge u) (nodes, q) = Ok (nodes', q ++ ch) /\ QI (u :: D) (q ++ ch) /\ NOK (fullD (u :: D)) (discD (u :: D) (q ++ ch)) nodes'.
    Proof.
      intros NK. destruct (rfor_range_inv turn_inv 0 N (build_edge u) (nodes, q)) as ([nodes' q'] & E1 & ch & Eq & Hch & Hchi & NK').
      - lia.
      - exists []. cbn. rewrite app_nil_r. split; [reflexivity|]. split; [constructor|]. split.
        + intros x. rewrite elem_of_nil. split; [intros []|]. intros (j & J1 & _). lia.
        + eapply NOK_ext; [| |exact NK].
          * intros p i Hi. unfold fullT. split; [auto|]. intros [H|[_ H]]; [exact H|lia].
          * intros p [H|H]; [exact H|inversion H].
      - intros i [nodes1 q1] Hi I1. apply turn_step; [lia|exact I1].
      - cbn [fst snd] in *. subst q'. unfold range. rewrite E1. exists nodes', ch. split; [reflexivity|].
        destruct u_facts as (U0 & UD & Uq & _).
        assert (forall x, x ∈ ch -> exists j, str !! x = Some (s ++ [off + j]) /\ x <> 0 /\ x <> u /\ ~ discD D (u :: q) x /\ len x = len u + 1) as Hc.
        { intros x Hx. apply Hchi in Hx as (j & _ & Hj). exists j. split; [exact Hj|]. destruct (child_new x j Hj) as (A1 & A2 & A3). split; [exact A1|]. split; [exact A2|]. split; [exact A3|].
          rewrite (len_Some x _ Hj), (len_Some u _ Hu), app_length. reflexivity. }
        assert (forall b, b ∈ q -> len u <= len b <= len u + 1) as Hqb.
        { intros b Hb. split; [|apply (q_near _ _ Q); [left|right; exact Hb]]. apply elem_of_list_lookup_1 in Hb as (j & Hj). apply (q_sorted _ _ Q 0 (S j) u b eq_refl Hj). lia. }
        split; [split|].
        + intros p H. rewrite elem_of_app, elem_of_cons in H. destruct H as [[H|H]|[->|H]].
          * apply (q_in _ _ Q). left. right. exact H.
          * destruct (Hc p H) as (j & J1 & J2 & _). split; [apply lookup_lt_Some in J1; exact J1|exact J2].
          * apply (q_in _ _ Q). left. left.
          * apply (q_in _ _ Q). right. exact H.
        + pose proof (q_nodup _ _ Q) as Hn. cbn in Hn. apply NoDup_cons in Hn as [Hn1 Hn]. rewrite <- app_assoc. rewrite (Permutation_app_comm ch). rewrite app_assoc.
          apply NoDup_app. split; [|split; [|exact Hch]].
          * rewrite <- Permutation_middle. apply NoDup_cons. auto.
          * intros x Hx Hx'. destruct (Hc x Hx') as (_ & _ & _ & A & B & _). rewrite elem_of_app, elem_of_cons in Hx. destruct Hx as [Hx|[Hx|Hx]]; [|contradiction|].
            -- apply B. right. left. right. exact Hx.
            -- apply B. right. right. exact Hx.
        + intros i j a b Ha Hb Hij. apply lookup_app_Some in Ha as [Ha|[Ha1 Ha]]; apply lookup_app_Some in Hb as [Hb|[Hb1 Hb]].
          * apply (q_sorted _ _ Q (S i) (S j) a b Ha Hb). lia.
          * apply elem_of_list_lookup_2 in Ha, Hb. destruct (Hc b Hb) as (_ & _ & _ & _ & _ & ->). apply Hqb. exact Ha.
          * apply lookup_lt_Some in Hb. lia.
          * apply elem_of_list_lookup_2 in Ha, Hb. destruct (Hc b Hb) as (_ & _ & _ & _ & _ & ->). destruct (Hc a Ha) as (_ & _ & _ & _ & _ & ->). lia.
        + intros a b Ha Hb. assert (len u <= len a) as La.
          { apply elem_of_app in Ha as [Ha|Ha]; [apply Hqb; exact Ha|]. destruct (Hc a Ha) as (_ & _ & _ & _ & _ & ->). lia. }
          assert (len b <= len u + 1) as Lb; [|lia]. apply elem_of_app in Hb as [Hb|Hb]; [apply Hqb; exact Hb|]. destruct (Hc b Hb) as (_ & _ & _ & _ & _ & ->). lia.
        + intros p pp Hpar Hpp. rewrite elem_of_app, elem_of_cons. rewrite elem_of_cons in Hpp. destruct (decide (pp = u)) as [->|Hne].
          * destruct Hpar as (t & c & P1 & P2). rewrite Hu in P2. injection P2 as <-. left. right. apply Hchi.
            assert (off <= c < off + N) as Hcc. { pose proof (Halph _ (elem_of_list_lookup_2 _ _ _ P1)) as Ha. apply Forall_app in Ha as [_ Ha]. inversion Ha; auto. }
            exists (c - off). split; [lia|]. rewrite P1. repeat f_equal. lia.
          * destruct (q_cover _ _ Q p pp Hpar) as [H|H]; [tauto| |auto]. apply elem_of_cons in H as [->|H]; auto.
        + intros p H. rewrite elem_of_app, elem_of_cons in H. assert (p ∈ ch \/ p ∈ u :: q \/ p ∈ D) as [H'|H'] by (rewrite elem_of_cons; tauto).
          * destruct (Hc p H') as (j & J1 & _). exists u. split; [exists s, (off + j); auto|]. right. left.
          * destruct (q_parent _ _ Q p H') as (pp & A & B). exists pp. split; [exact A|]. rewrite elem_of_cons. tauto.
        + eapply NOK_ext; [| |exact NK'].
          * intros p i Hi. unfold fullT, fullD. rewrite elem_of_cons. split; [intros [[?|?]|[-> _]]; auto|intros [?|[->|?]]; auto].
          * intros p H. unfold discD in *. rewrite elem_of_app, elem_of_cons in H. rewrite elem_of_cons. tauto.
    Qed.
  End turn.

  (** *** The whole of build *)
  Context (nodes0 : list node) (Hti : TI off N str nodes0 E).

  Lemma start_ok : exists q, rfor (range 0 N) (fun i q => x ← vget nodes0 0; v ← vget (nd_next x) i; Ok (if negb (v =? 0) then q ++ [v] else q)) [] = Ok q /\
    QI [] q /\ NOK (fullD []) (discD [] q) nodes0.
  Proof.
    destruct (ti_node _ _ _ _ _ Hti 0 [] Hroot) as (nd & N1 & N2 & N3 & N4 & N5 & N6).
    destruct (rfor_range_inv (fun i q => NoDup q /\ forall x, x ∈ q <-> exists j, j < i /\ str !! x = Some [off + j]) 0 N
      (fun i q => x ← vget nodes0 0; v ← vget (nd_next x) i; Ok (if negb (v =? 0) then q ++ [v] else q)) []) as (q & E1 & Hq & Hqi).
    - lia.
    - split; [constructor|]. intros x. rewrite elem_of_nil. split; [intros []|]. intros (j & J & _). lia.
    - intros i q Hi [Hq Hqi]. rewrite (vget_ok _ _ _ N1). cbn [mbind res_bind]. destruct (N6 i) as (v & V1 & V2); [lia|]. rewrite (vget_ok _ _ _ V1). cbn [mbind res_bind].
      eexists. split; [reflexivity|]. destruct (Nat.eqb_spec v 0) as [->|Hv0]; cbn [negb].
      + destruct V2 as [[_ Hni]|[? _]]; [|lia]. split; [exact Hq|]. intros x. rewrite Hqi. split; intros (j & J1 & J2); exists j; (split; [|exact J2]); [lia|].
        destruct (decide (j = i)) as [->|]; [|lia]. exfalso. apply Hni. eapply elem_of_list_lookup_2; eauto.
      + destruct V2 as [[? _]|[_ Hv]]; [lia|]. cbn [app] in Hv. split.
        * apply NoDup_app. split; [exact Hq|]. split; [|apply NoDup_singleton]. intros x Hx Hx'. apply elem_of_list_singleton in Hx' as ->. apply Hqi in Hx as (j & J1 & J2).
          rewrite Hv in J2. injection J2 as J2. lia.
        * intros x. rewrite elem_of_app, elem_of_list_singleton, Hqi. split.
          -- intros [(j & J1 & J2)| ->]; [exists j; split; [lia|exact J2]|exists i; split; [lia|exact Hv]].
          -- intros (j & J1 & J2). destruct (decide (j = i)) as [->|Hji]; [right; eapply id_inj; eauto|left; exists j; split; [lia|exact J2]].
    - unfold range. rewrite E1. exists q. split; [reflexivity|].
      assert (forall x, x ∈ q -> len x = 1) as Hl by (intros x Hx; apply Hqi in Hx as (j & _ & Hj); rewrite (len_Some x _ Hj); reflexivity). split; [split|].
      + intros p [H|H]; [|inversion H]. apply Hqi in H as (j & _ & Hj). split; [apply lookup_lt_Some in Hj; exact Hj|]. intros ->. rewrite Hroot in Hj. discriminate.
      + rewrite app_nil_r. exact Hq.
      + intros i j a b Ha Hb _. apply elem_of_list_lookup_2 in Ha, Hb. rewrite (Hl a Ha), (Hl b Hb). lia.
      + intros a b Ha Hb. rewrite (Hl a Ha), (Hl b Hb). lia.
      + intros p pp (t & c & P1 & P2) [->|H]; [|inversion H]. rewrite Hroot in P2. injection P2 as <-. cbn [app] in P1. left. apply Hqi.
        pose proof (Halph _ (elem_of_list_lookup_2 _ _ _ P1)) as Ha. inversion Ha as [|? ? Hcc _]; subst. exists (c - off). split; [lia|]. rewrite P1. repeat f_equal. lia.
      + intros p [H|H]; [|inversion H]. apply Hqi in H as (j & _ & Hj). exists 0. split; [|auto]. exists [], (off + j). auto.
      + split; [apply Hti|]. intros p s Hp. destruct (ti_node _ _ _ _ _ Hti p s Hp) as (pd & P1 & P2 & P3 & P4 & P5 & P6). exists pd.
        split; [exact P1|]. split; [exact P2|]. split; [exact P5|]. split.
        * intros i Hi. destruct (P6 i Hi) as (x & X1 & X2). exists x. split; [exact X1|]. split; [|auto]. intros [->|H]; [|inversion H].
          rewrite Hroot in Hp. injection Hp as <-. cbn [app] in *. destruct X2 as [[-> Hni]|[_ Hx]].
          -- rewrite Hroot, lsuf_cons by exact Hni. f_equal. symmetry. apply lsuf_in. exact T_nil.
          -- rewrite Hx. f_equal. symmetry. apply lsuf_in. eapply elem_of_list_lookup_2; eauto.
        * rewrite P3, P4. unfold out_ok. intros [->|[H|H]]; [| |inversion H].
          -- rewrite Hroot in Hp. injection Hp as <-. auto.
          -- apply Hqi in H as (j & _ & Hj). rewrite Hj in Hp. injection Hp as <-. split; [rewrite lps_single by exact T_nil; exact Hroot|]. cbn.
             rewrite HE0. reflexivity.
  Qed.

  Lemma all_done D : QI D [] -> forall k p s, str !! p = Some s -> length s = k -> p = 0 \/ p ∈ D.
  Proof.
    intros Q k. induction k as [k IH] using lt_wf_ind. intros p s Hp Hk. destruct (str_cases p s Hp) as [[-> _]|(pp & t & c & -> & Hpp & Hpar)]; [auto|].
    rewrite app_length in Hk. cbn in Hk. assert (pp = 0 \/ pp ∈ D) as Hdone by (eapply (IH (length t)); eauto; lia).
    destruct (q_cover _ _ Q p pp Hpar Hdone) as [H|H]; [inversion H|auto].
  Qed.
  Lemma done_few D u q : QI D (u :: q) -> length D < length str.
  Proof.
    intros Q. assert (length (u :: D) <= length (seq 0 (length str))) as H; [|rewrite seq_length in H; cbn in H; lia].
    apply submseteq_length, NoDup_submseteq.
    - pose proof (q_nodup _ _ Q) as Hn. cbn in Hn. apply NoDup_cons in Hn as [Hn1 Hn]. apply NoDup_app in Hn as (_ & _ & Hn). apply NoDup_cons. split; [|exact Hn]. intros H. apply Hn1, elem_of_app. auto.
    - intros p H. apply elem_of_seq. cbn. split; [lia|]. apply elem_of_cons in H as [->|H]; apply (q_in _ _ Q); [left; left|right; exact H].
  Qed.

  (** The finished automaton. *)
  Record AK (nodes : list node) : Prop := {
    ak_len : length nodes = length str;
    ak_node : forall p s, str !! p = Some s -> exists nd, nodes !! p = Some nd /\ length (nd_next nd) = N /\ nd_end nd = E s /\
      (forall i, i < N -> exists x, nd_next nd !! i = Some x /\ str !! x = Some (lsuf (s ++ [off + i]))) /\ out_ok (nd_output nd) s;
    ak_back : forall p nd, nodes !! p = Some nd -> nd_back nd < length nodes }.

  Lemma build_ok n : exists a, aho_build N (Aho n nodes0) = Ok a /\ ah_n a = n /\ AK (ah_nodes a).
  Proof.
    unfold aho_build, build_fuel. cbn [ah_nodes ah_n]. destruct start_ok as (q0 & -> & Q0 & NK0). cbn [mbind res_bind].
    destruct (rloop_inv_idx (fun m st => exists D, QI D st.2 /\ NOK (fullD D) (discD D st.2) st.1 /\ m = length str - length D) AK (build_step N))
      with (fuel := S (length nodes0)) (m := length str) (s := (nodes0, q0)) as (nodes & -> & A).
    - intros m [nodes q] (D & Q & NK & ->). cbn [fst snd] in *. unfold build_step. destruct q as [|u q].
      + eexists. split; [reflexivity|]. cbn. split; [apply NK| |].
        2:{ intros p nd Hp. assert (p < length str) as Hpl by (rewrite <- (nk_len _ _ _ NK); apply lookup_lt_Some in Hp; exact Hp). destruct (lookup_lt_is_Some_2 str p Hpl) as [s Hs].
            destruct (nk_node _ _ _ NK p s Hs) as (nd' & N1 & _ & _ & _ & N5). rewrite Hp in N1. injection N1 as <-. rewrite (nk_len _ _ _ NK).
            destruct N5 as [N5 _]; [|apply lookup_lt_Some in N5; exact N5]. destruct (all_done D Q _ p s Hs eq_refl) as [->|Hd]; [left; reflexivity|right; right; exact Hd]. }
        intros p s Hp. destruct (nk_node _ _ _ NK p s Hp) as (nd & N1 & N2 & N3 & N4 & N5).
        pose proof (all_done D Q _ p s Hp eq_refl) as Hd. exists nd. split; [exact N1|]. split; [exact N2|]. split; [exact N3|]. split.
        * intros i Hi. destruct (N4 i Hi) as (x & X1 & X2 & _). exists x. split; [exact X1|]. apply X2. exact Hd.
        * apply N5. destruct Hd as [->|Hd]; [left; reflexivity|right; right; exact Hd].
      + destruct (q_in _ _ Q u) as [Hul _]; [left; left|]. destruct (lookup_lt_is_Some_2 str u Hul) as [s Hs].
        destruct (turn_ok D q u Q s Hs nodes NK) as (nodes' & ch & -> & Q' & NK'). cbn [mbind res_bind]. eexists. split; [reflexivity|]. cbn.
        pose proof (done_few D u q Q). exists (length str - length (u :: D)). split; [cbn; lia|]. exists (u :: D). cbn [fst snd]. auto.
    - exists []. cbn [fst snd]. split; [exact Q0|]. split; [exact NK0|]. cbn. lia.
    - rewrite (ti_len _ _ _ _ _ Hti). lia.
    - cbn [mbind res_bind]. eexists. split; [reflexivity|]. split; [reflexivity|exact A].
  Qed.
End build.
