(** Aho-Corasick: insert builds the trie of the inserted strings. *)
From Verif Require Import Prelude UtilModel AhoSpec AhoModel AhoStr.

Section trie.
  Context (off N : nat).

  (** Node p stands for the string str[p]. *)
  Definition trie_entry (str : list (list nat)) (s : list nat) (i x : nat) : Prop :=
    (x = 0 /\ s ++ [off + i] ∉ str) \/ (x <> 0 /\ str !! x = Some (s ++ [off + i])).

  Record TI (str : list (list nat)) (nodes : list node) (E : list nat -> option nat) : Prop := {
    ti_len : length nodes = length str;
    ti_root : str !! 0 = Some [];
    ti_nodup : NoDup str;
    ti_pre : forall s c, s ++ [c] ∈ str -> s ∈ str;
    ti_alph : forall s, s ∈ str -> in_alphabet off N s;
    ti_E : forall s k, E s = Some k -> s ∈ str;
    ti_node : forall p s, str !! p = Some s -> exists nd, nodes !! p = Some nd /\ length (nd_next nd) = N /\ nd_back nd = 0 /\ nd_output nd = None /\
      nd_end nd = E s /\ forall i, i < N -> exists x, nd_next nd !! i = Some x /\ trie_entry str s i x }.

  Lemma new_TI n : TI [[]] (ah_nodes (aho_new N n)) (fun _ => None).
  Proof.
    split; cbn.
    - reflexivity.
    - reflexivity.
    - apply NoDup_singleton.
    - intros s c H. apply elem_of_list_singleton in H. destruct s; discriminate.
    - intros s H. apply elem_of_list_singleton in H as ->. constructor.
    - discriminate.
    - intros p s H. apply list_lookup_singleton_Some in H as [-> <-]. exists (node_new N). split; [reflexivity|]. split; [apply replicate_length|].
      split; [reflexivity|]. split; [reflexivity|]. split; [reflexivity|]. intros i Hi. exists 0. split; [apply lookup_replicate_2; exact Hi|].
      left. split; [reflexivity|]. rewrite elem_of_list_singleton. discriminate.
  Qed.

  Lemma insert_step_ok str nodes E p d c : TI str nodes E -> str !! p = Some d -> off <= c < off + N ->
    exists str' nodes' q, insert_step off N c (nodes, p) = Ok (nodes', q) /\ TI str' nodes' E /\ str' !! q = Some (d ++ [c]) /\
      forall s, s ∈ str' <-> s ∈ str \/ s = d ++ [c].
  Proof.
    intros [Hlen Hroot Hnd Hpre Halph HE Hnode] Hp Hc. destruct (Hnode p d Hp) as (nd & N1 & N2 & N3 & N4 & N5 & N6).
    unfold insert_step, letter, nsub. destruct (Nat.leb_spec off c); [|lia]. cbn [mbind res_bind]. rewrite (vget_ok _ _ _ N1). cbn [mbind res_bind].
    destruct (N6 (c - off)) as (x & X1 & X2); [lia|]. rewrite (vget_ok _ _ _ X1). cbn [mbind res_bind].
    unfold trie_entry in X2. replace (off + (c - off)) with c in X2 by lia. destruct (Nat.eqb_spec x 0) as [->|Hx].
    - destruct X2 as [[_ Hni]|[? _]]; [|lia]. rewrite vset_ok by lia. cbn [mbind res_bind].
      assert (p < length nodes) as Hpl by (apply lookup_lt_Some in N1; exact N1). rewrite vset_ok by exact Hpl. cbn [mbind res_bind].
      rewrite (vget_ok _ p (with_next nd (<[c - off:=length nodes]> (nd_next nd)))) by (rewrite lookup_app_l by (rewrite insert_length; exact Hpl); apply list_lookup_insert; exact Hpl).
      cbn [mbind res_bind with_next nd_next]. rewrite (vget_ok _ (c - off) (length nodes)) by (apply list_lookup_insert; lia). cbn [mbind res_bind].
      eexists (str ++ [d ++ [c]]), _, (length nodes). split; [reflexivity|].
      assert (forall s, s ∈ str ++ [d ++ [c]] <-> s ∈ str \/ s = d ++ [c]) as Hel by (intros s; rewrite elem_of_app, elem_of_list_singleton; reflexivity).
      assert ((str ++ [d ++ [c]]) !! length nodes = Some (d ++ [c])) as Hnew by (rewrite Hlen; apply list_lookup_middle; reflexivity).
      split; [|split; [exact Hnew|exact Hel]]. split.
      + rewrite !app_length, insert_length. cbn. lia.
      + rewrite lookup_app_l; [exact Hroot|]. apply lookup_lt_Some in Hroot. exact Hroot.
      + apply NoDup_app. split; [exact Hnd|]. split; [|apply NoDup_singleton]. intros s Hs Hs'. apply elem_of_list_singleton in Hs' as ->. contradiction.
      + intros s a Hs. apply Hel. left. apply Hel in Hs as [Hs|Hs]; [eapply Hpre; eauto|]. apply app_inj_tail in Hs as [-> _]. eapply elem_of_list_lookup_2; eauto.
      + intros s Hs. apply Hel in Hs as [Hs| ->]; [auto|]. apply Forall_app. split; [apply Halph; eapply elem_of_list_lookup_2; eauto|]. constructor; [exact Hc|constructor].
      + intros s k Hk. apply Hel. left. eauto.
      + intros p' s Hs. apply lookup_app_Some in Hs as [Hs|[Hs1 Hs2]].
        * assert (p' < length nodes) as Hp'l by (rewrite Hlen; apply lookup_lt_Some in Hs; exact Hs).
          rewrite lookup_app_l by (rewrite insert_length; exact Hp'l). destruct (decide (p' = p)) as [->|Hne].
          -- rewrite Hp in Hs. injection Hs as <-. rewrite list_lookup_insert by exact Hpl. eexists. split; [reflexivity|]. cbn. rewrite insert_length.
             split; [exact N2|]. split; [exact N3|]. split; [exact N4|]. split; [exact N5|]. intros i Hi. destruct (decide (i = c - off)) as [->|Hi'].
             ++ exists (length nodes). split; [apply list_lookup_insert; lia|]. right. split; [apply lookup_lt_Some in N1; lia|]. rewrite Hnew. repeat f_equal. lia.
             ++ rewrite list_lookup_insert_ne by auto. destruct (N6 i Hi) as (y & Y1 & Y2). exists y. split; [exact Y1|]. destruct Y2 as [[-> Y]|[Y0 Y]].
                ** left. split; [reflexivity|]. rewrite Hel. intros [?|Ee]; [contradiction|]. apply app_inj_tail in Ee as [_ Ee]. lia.
                ** right. split; [exact Y0|]. apply lookup_app_l_Some. exact Y.
          -- rewrite list_lookup_insert_ne by auto. destruct (Hnode p' s Hs) as (nd' & M1 & M2 & M3 & M4 & M5 & M6). exists nd'.
             split; [exact M1|]. split; [exact M2|]. split; [exact M3|]. split; [exact M4|]. split; [exact M5|]. intros i Hi.
             destruct (M6 i Hi) as (y & Y1 & Y2). exists y. split; [exact Y1|]. destruct Y2 as [[-> Y]|[Y0 Y]].
             ++ left. split; [reflexivity|]. rewrite Hel. intros [?|Ee]; [contradiction|]. apply app_inj_tail in Ee as [-> _].
                apply Hne. eapply NoDup_lookup; eauto.
             ++ right. split; [exact Y0|]. apply lookup_app_l_Some. exact Y.
        * apply list_lookup_singleton_Some in Hs2 as [Hs2 <-]. assert (p' = length nodes) as -> by lia.
          exists (node_new N). split; [apply list_lookup_middle; rewrite insert_length; reflexivity|]. split; [apply replicate_length|].
          split; [reflexivity|]. split; [reflexivity|]. split; [destruct (E (d ++ [c])) as [k|] eqn:Ek; [exfalso; eauto|reflexivity]|].
          intros i Hi. exists 0. split; [apply lookup_replicate_2; exact Hi|]. left. split; [reflexivity|]. rewrite Hel. intros [H1|H1].
          -- apply Hpre in H1. contradiction.
          -- apply (f_equal length) in H1. rewrite !app_length in H1. cbn in H1. lia.
    - destruct X2 as [[? _]|[_ Hx2]]; [lia|]. cbn [mbind res_bind]. rewrite (vget_ok _ _ _ N1). cbn [mbind res_bind]. rewrite (vget_ok _ _ _ X1). cbn [mbind res_bind].
      exists str, nodes, x. split; [reflexivity|]. split; [split; auto|]. split; [exact Hx2|]. intros s. split; [auto|]. intros [?| ->]; [auto|]. eapply elem_of_list_lookup_2; eauto.
  Qed.

  Lemma insert_step_panic str nodes E p d c : TI str nodes E -> str !! p = Some d -> ~ (off <= c < off + N) -> insert_step off N c (nodes, p) = Panic.
  Proof.
    intros TH Hp Hc. destruct (ti_node _ _ _ TH p d Hp) as (nd & N1 & N2 & _). unfold insert_step, letter, nsub. destruct (Nat.leb_spec off c); [|reflexivity].
    cbn [mbind res_bind]. rewrite (vget_ok _ _ _ N1). cbn [mbind res_bind]. rewrite vget_panic by lia. reflexivity.
  Qed.

  Lemma prefix_snoc (s d : list nat) c : s `prefix_of` d ++ [c] <-> s `prefix_of` d \/ s = d ++ [c].
  Proof.
    split.
    - intros [k Hk]. destruct k as [|a k _] using rev_ind; [right; rewrite app_nil_r in Hk; auto|]. left. rewrite app_assoc in Hk. apply app_inj_tail in Hk as [-> _]. exists k. reflexivity.
    - intros [H| ->]; [|reflexivity]. apply prefix_app_r. exact H.
  Qed.

  Lemma insert_loop str nodes E s : TI str nodes E -> in_alphabet off N s ->
    exists str' nodes' q, rfor s (insert_step off N) (nodes, 0) = Ok (nodes', q) /\ TI str' nodes' E /\ str' !! q = Some s /\
      forall x, x ∈ str' <-> x ∈ str \/ x `prefix_of` s.
  Proof.
    intros TH Hs. destruct (rfor_inv (fun d (st : list node * nat) => exists str', TI str' st.1 E /\ str' !! st.2 = Some d /\ forall x, x ∈ str' <-> x ∈ str \/ x `prefix_of` d)
      s (insert_step off N) (nodes, 0)) as ([nodes' q] & -> & str' & H1 & H2 & H3).
    - exists str. split; [exact TH|]. split; [apply TH|]. intros x. split; [auto|]. intros [?|H]; [auto|]. apply prefix_nil_inv in H as ->.
      eapply elem_of_list_lookup_2. apply (ti_root _ _ _ TH).
    - intros d c rest [nodes1 p] Esplit (str1 & H1 & H2 & H3). cbn [fst snd] in *.
      assert (off <= c < off + N) as Hc by (rewrite Esplit in Hs; apply Forall_app in Hs as [_ Hs]; inversion Hs; auto).
      destruct (insert_step_ok str1 nodes1 E p d c H1 H2 Hc) as (str2 & nodes2 & q & -> & I1 & I2 & I3).
      eexists. split; [reflexivity|]. exists str2. split; [exact I1|]. split; [exact I2|]. intros x. rewrite I3, H3, prefix_snoc. tauto.
    - exists str', nodes', q. auto.
  Qed.

  Lemma insert_ok str a E s i : TI str (ah_nodes a) E -> s <> [] -> in_alphabet off N s ->
    exists str' a', aho_insert off N a s i = Ok a' /\ ah_n a' = ah_n a /\ TI str' (ah_nodes a') (fun x => if decide (s = x) then Some i else E x) /\
      forall x, x ∈ str' <-> x ∈ str \/ x `prefix_of` s.
  Proof.
    intros TH Hne Hs. unfold aho_insert. destruct s as [|c0 s0]; [contradiction|]. set (s := c0 :: s0) in *. change (length s =? 0) with false. cbn [negb rassert mbind res_bind].
    destruct (insert_loop str (ah_nodes a) E s TH Hs) as (str' & nodes' & q & -> & I1 & I2 & I3). cbn [mbind res_bind].
    destruct (ti_node _ _ _ I1 q s I2) as (nd & N1 & N2 & N3 & N4 & N5 & N6). rewrite (vget_ok _ _ _ N1). cbn [mbind res_bind].
    assert (q < length nodes') as Hq by (apply lookup_lt_Some in N1; exact N1). rewrite vset_ok by exact Hq. cbn [mbind res_bind].
    exists str'. eexists. split; [reflexivity|]. split; [reflexivity|]. split; [|exact I3]. cbn [ah_nodes]. destruct I1 as [Hlen Hroot Hnd Hpre Halph HE Hnode]. split; auto.
    - rewrite insert_length. exact Hlen.
    - intros x k. destruct (decide (s = x)) as [<-|_]; [|apply HE]. intros _. eapply elem_of_list_lookup_2; eauto.
    - intros p x Hp. destruct (decide (p = q)) as [->|Hpq].
      + rewrite I2 in Hp. injection Hp as <-. rewrite list_lookup_insert by exact Hq. eexists. split; [reflexivity|]. cbn.
        split; [exact N2|]. split; [exact N3|]. split; [exact N4|]. split; [|exact N6]. rewrite decide_True by reflexivity. reflexivity.
      + rewrite list_lookup_insert_ne by auto. rewrite decide_False; [apply Hnode; exact Hp|]. intros ->. apply Hpq. eapply NoDup_lookup; eauto.
  Qed.

  Lemma insert_panic str a E s i : TI str (ah_nodes a) E -> s = [] \/ ~ in_alphabet off N s -> aho_insert off N a s i = Panic.
  Proof.
    intros TH [->|Hs]; [reflexivity|]. unfold aho_insert. destruct (length s =? 0); [reflexivity|]. cbn [negb rassert mbind res_bind].
    assert (exists s1 c s2, s = s1 ++ c :: s2 /\ in_alphabet off N s1 /\ ~ (off <= c < off + N)) as (s1 & c & s2 & -> & Hs1 & Hc).
    { clear TH. induction s as [|c s IH]; [exfalso; apply Hs; constructor|]. destruct (decide (off <= c < off + N)) as [Hc|Hc].
      - destruct IH as (s1 & c1 & s2 & -> & H1 & H2); [intros H; apply Hs; constructor; auto|]. exists (c :: s1), c1, s2. split; [reflexivity|]. split; [constructor; auto|exact H2].
      - exists [], c, s. split; [reflexivity|]. split; [constructor|exact Hc]. }
    destruct (insert_loop str (ah_nodes a) E s1 TH Hs1) as (str' & nodes' & q & H1 & H2 & H3 & _).
    rewrite rfor_app, H1. cbn [mbind res_bind rfor]. rewrite (insert_step_panic str' nodes' E q s1 c H2 H3 Hc). reflexivity.
  Qed.

  Lemma last_index_snoc ins x s : last_index (ins ++ [x]) s = if decide (x.1 = s) then Some x.2 else last_index ins s.
  Proof. unfold last_index. rewrite foldl_app. reflexivity. Qed.

  Definition live (ins : list (list nat * nat)) (s : list nat) : Prop := s = [] \/ exists x, x ∈ ins /\ s `prefix_of` x.1.
  Definition good (x : list nat * nat) : Prop := x.1 <> [] /\ in_alphabet off N x.1.

  Lemma TI_ext str nodes E E' : (forall s, E s = E' s) -> TI str nodes E -> TI str nodes E'.
  Proof.
    intros H [Hlen Hroot Hnd Hpre Halph HE Hnode]. split; auto.
    - intros s k Hk. rewrite <- H in Hk. eauto.
    - intros p s Hp. destruct (Hnode p s Hp) as (nd & N1 & N2 & N3 & N4 & N5 & N6). exists nd. rewrite <- H. auto 10.
  Qed.

  Lemma inserts_ok n ins : Forall good ins ->
    exists str a, aho_inserts off N (aho_new N n) ins = Ok a /\ ah_n a = n /\ TI str (ah_nodes a) (last_index ins) /\ forall x, x ∈ str <-> live ins x.
  Proof.
    intros Hg. unfold aho_inserts.
    destruct (rfor_inv (fun d a => ah_n a = n /\ exists str, TI str (ah_nodes a) (last_index d) /\ forall x, x ∈ str <-> live d x)
      ins (fun x a => aho_insert off N a x.1 x.2) (aho_new N n)) as (a & -> & Hn & str & H1 & H2).
    - split; [reflexivity|]. exists [[]]. split; [apply new_TI|]. intros x. rewrite elem_of_list_singleton. split; [left; auto|]. intros [?|(y & Hy & _)]; [auto|inversion Hy].
    - intros d x rest a Esplit (Hn & str & H1 & H2). rewrite Esplit in Hg. apply Forall_app in Hg as [_ Hg]. inversion Hg as [|? ? [Hg1 Hg2] _]; subst.
      destruct (insert_ok str a (last_index d) x.1 x.2 H1 Hg1 Hg2) as (str' & a' & -> & E1 & E2 & E3). exists a'. split; [reflexivity|]. split; [congruence|].
      exists str'. split.
      + eapply TI_ext; [|exact E2]. intros s. cbv beta. rewrite last_index_snoc. reflexivity.
      + intros s. rewrite E3, H2. unfold live. setoid_rewrite elem_of_app. setoid_rewrite elem_of_list_singleton. split.
        * intros [[?|(y & Y1 & Y2)]|H]; [auto|right; exists y; auto|right; exists x; auto].
        * intros [?|(y & [Y1| ->] & Y2)]; [auto|left; right; exists y; auto|auto].
    - exists str, a. auto.
  Qed.

  Lemma inserts_panic n ins : ~ Forall good ins -> aho_inserts off N (aho_new N n) ins = Panic.
  Proof.
    intros Hg. assert (exists i1 x i2, ins = i1 ++ x :: i2 /\ Forall good i1 /\ ~ good x) as (i1 & x & i2 & -> & Hi & Hx).
    { induction ins as [|x ins IH]; [exfalso; apply Hg; constructor|]. assert (Decision (good x)) as Dx by (unfold good, in_alphabet; apply _). destruct (decide (good x)) as [Hx|Hx].
      - destruct IH as (i1 & x1 & i2 & -> & H1 & H2); [intros H; apply Hg; constructor; auto|]. exists (x :: i1), x1, i2. split; [reflexivity|]. split; [constructor; auto|exact H2].
      - exists [], x, ins. split; [reflexivity|]. split; [constructor|exact Hx]. }
    destruct (inserts_ok n i1 Hi) as (str & a & E & _ & TH & _). unfold aho_inserts in *. rewrite rfor_app, E. cbn [mbind res_bind rfor].
    rewrite (insert_panic str a _ x.1 x.2 TH); [reflexivity|]. unfold good in Hx. destruct (decide (x.1 = [])); [auto|right; intros H; apply Hx; auto].
  Qed.
End trie.
