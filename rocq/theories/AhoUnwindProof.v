(** Proofs about AhoCorasick::insert with caught panics. *)
From Verif Require Import Prelude UtilModel AhoSpec AhoModel AhoStr AhoTrie AhoBuild AhoProof AhoProps Unwind AhoUnwindModel AhoUnwindSpec.

#[global] Instance insertable_dec off N x : Decision (insertable off N x).
Proof. unfold insertable, in_alphabet. apply _. Defined.

Section trie.
  Context (off N : nat).

  Lemma insert_step_strip c p nodes : strip (insert_step_uw off N c p nodes) = insert_step off N c (nodes, p).
  Proof.
    unfold insert_step_uw, insert_step. rewrite strip_bind, strip_read. destruct (letter off c) as [idx| |]; cbn [mbind res_bind]; [|reflexivity|reflexivity].
    rewrite strip_bind, strip_read. destruct (vget nodes p) as [x| |]; cbn [mbind res_bind]; [|reflexivity|reflexivity].
    rewrite strip_bind, strip_read. destruct (vget (nd_next x) idx) as [y| |]; cbn [mbind res_bind]; [|reflexivity|reflexivity].
    rewrite strip_bind. destruct (y =? 0).
    - rewrite strip_bind, strip_write. destruct (vset (nd_next x) idx (length nodes)) as [l| |]; cbn [mbind res_bind]; [|reflexivity|reflexivity].
      destruct (vset nodes p (with_next x l)) as [nodes'| |]; cbn [mbind res_bind]; [|reflexivity|reflexivity].
      rewrite strip_write. cbn [mbind res_bind]. rewrite strip_bind, strip_read. destruct (vget _ p) as [x'| |]; cbn [mbind res_bind]; [|reflexivity|reflexivity].
      exact (strip_read (fun _ => vget (nd_next x') idx) _).
    - rewrite strip_ret. cbn [mbind res_bind]. rewrite strip_bind, strip_read. destruct (vget _ p) as [x'| |]; cbn [mbind res_bind]; [|reflexivity|reflexivity].
      exact (strip_read (fun _ => vget (nd_next x') idx) _).
  Qed.

  Lemma mark_strip p i nodes : strip (mark_uw p i nodes) =
    (x ← vget nodes p; nodes ← vset nodes p (Node (nd_back x) (Some i) (nd_nmatches x + 1) (nd_output x) (nd_next x)); Ok (nodes, tt)).
  Proof.
    unfold mark_uw. rewrite strip_bind, strip_write. destruct (lookup_lt_is_Some nodes p) as [H1 H2]. destruct (nodes !! p) as [x|] eqn:Ex.
    - rewrite (vget_ok _ _ _ Ex). cbn [mbind res_bind]. assert (p < length nodes) as Hp by (eapply lookup_lt_Some; eauto). rewrite vset_ok by exact Hp. cbn [mbind res_bind].
      rewrite strip_write. erewrite vget_ok by (apply list_lookup_insert; exact Hp). cbn [mbind res_bind nd_back nd_end nd_nmatches nd_output nd_next].
      rewrite vset_ok by (rewrite insert_length; exact Hp). cbn [mbind res_bind]. rewrite list_insert_insert, vset_ok by exact Hp. reflexivity.
    - assert (vget nodes p = Panic) as -> by (unfold vget; rewrite Ex; reflexivity). reflexivity.
  Qed.

  Lemma insert_strip n nodes s i : (a ← strip (insert_uw off N s i nodes); Ok (Aho n a.1)) = aho_insert off N (Aho n nodes) s i.
  Proof.
    unfold insert_uw, aho_insert. rewrite strip_bind, strip_read. destruct (rassert _) as [[]| |]; cbn [mbind res_bind]; [|reflexivity|reflexivity].
    rewrite strip_bind, (strip_for _ (insert_step off N) insert_step_strip). cbn [ah_nodes ah_n].
    destruct (rfor s (insert_step off N) (nodes, 0)) as [[nodes' p]| |]; cbn [mbind res_bind]; [|reflexivity|reflexivity].
    rewrite mark_strip. destruct (vget nodes' p) as [x| |]; cbn [mbind res_bind]; [|reflexivity|reflexivity]. destruct (vset _ _ _) as [y| |]; reflexivity.
  Qed.

  (** A call that is rejected leaves the trie of its valid part. *)
  Lemma insert_rejected str nodes E s i : TI off N str nodes E -> ~ insertable off N (s, i) ->
    exists str' nodes', insert_uw off N s i nodes = Ok (nodes', None) /\ TI off N str' nodes' E /\
      forall x, x ∈ str' <-> x ∈ str \/ x `prefix_of` valid_part off N s.
  Proof.
    intros TH Hbad. unfold insert_uw. destruct s as [|c0 s0].
    { exists str, nodes. split; [apply ubind_unwound, uread_panic; reflexivity|]. split; [exact TH|]. intros x. split; [auto|]. intros [H|H]; [exact H|].
      cbn in H. apply prefix_nil_inv in H as ->. eapply elem_of_list_lookup_2. apply (ti_root _ _ _ _ _ TH). }
    set (s := c0 :: s0) in *. assert (~ in_alphabet off N s) as Hs by (intros H; apply Hbad; split; [discriminate|exact H]).
    destruct (bad_split off N s Hs) as (d & c & rest & Es & Hd & Hc).
    rewrite (ubind_ok _ _ _ nodes tt) by (apply uread_ok; reflexivity).
    destruct (insert_loop off N str nodes E d TH Hd) as (str' & nodes' & q & H1 & H2 & H3 & H4).
    exists str', nodes'. split.
    - apply ubind_unwound. rewrite Es, ufor_app.
      rewrite (ubind_ok _ _ _ nodes' q) by (apply strip_Ok; rewrite (strip_for _ (insert_step off N) insert_step_strip); exact H1).
      cbn [ufor]. apply ubind_unwound. unfold insert_step_uw.
      destruct (ti_node _ _ _ _ _ H2 q d H3) as (nd & N1 & N2 & _). unfold letter, nsub. destruct (Nat.leb_spec off c) as [Hle|Hgt].
      + rewrite (ubind_ok _ _ _ nodes' (c - off)) by (apply uread_ok; reflexivity). rewrite (ubind_ok _ _ _ nodes' nd) by (apply uread_ok, vget_ok, N1).
        apply ubind_unwound, uread_panic, vget_panic. lia.
      + apply ubind_unwound, uread_panic. reflexivity.
    - split; [exact H2|]. assert (valid_part off N s = d) as ->; [|exact H4]. rewrite Es. clear - Hd Hc. induction d as [|a d IH]; cbn.
      + rewrite decide_False by exact Hc. reflexivity.
      + inversion Hd; subst. rewrite decide_True by assumption. f_equal. auto.
  Qed.

  Lemma valid_part_all s : in_alphabet off N s -> valid_part off N s = s.
  Proof. induction 1 as [|c s Hc _ IH]; cbn; [reflexivity|]. rewrite decide_True by exact Hc. f_equal. exact IH. Qed.

  Definition kept (ins : list (list nat * nat)) := filter (insertable off N) ins.
  Definition tried (ins : list (list nat * nat)) s := s = [] \/ exists x, x ∈ ins /\ s `prefix_of` valid_part off N x.1.

  Lemma caught_ok n ins : exists str nodes, inserts_caught off N (ah_nodes (aho_new N n)) ins = Ok nodes /\
    TI off N str nodes (last_index (kept ins)) /\ forall x, x ∈ str <-> tried ins x.
  Proof.
    unfold inserts_caught.
    destruct (rfor_inv (fun d nodes => exists str, TI off N str nodes (last_index (kept d)) /\ forall x, x ∈ str <-> tried d x)
      ins (fun x nodes => caught (insert_uw off N x.1 x.2) nodes) (ah_nodes (aho_new N n))) as (nodes & -> & str & H1 & H2).
    - exists [[]]. split; [apply new_TI|]. intros x. rewrite elem_of_list_singleton. split; [left; auto|]. intros [?|(y & Hy & _)]; [auto|inversion Hy].
    - intros d x rest nodes _ (str & H1 & H2).
      assert (forall str' : list (list nat), (forall s, s ∈ str' <-> s ∈ str \/ s `prefix_of` valid_part off N x.1) -> forall s, s ∈ str' <-> tried (d ++ [x]) s) as Hstr.
      { intros str' E3 s. rewrite E3, H2. unfold tried. setoid_rewrite elem_of_app. setoid_rewrite elem_of_list_singleton. split.
        - intros [[?|(y & Y1 & Y2)]|H]; [auto|right; exists y; auto|right; exists x; auto].
        - intros [?|(y & [Y1| ->] & Y2)]; [auto|left; right; exists y; auto|auto]. }
      destruct (decide (insertable off N x)) as [Hx|Hx].
      + destruct Hx as [Hx1 Hx2]. destruct (insert_ok off N str (Aho n nodes) (last_index (kept d)) x.1 x.2 H1 Hx1 Hx2) as (str' & a' & E1 & _ & E2 & E3).
        rewrite <- insert_strip in E1. unfold caught. destruct (strip (insert_uw off N x.1 x.2 nodes)) as [[nodes' []]| |] eqn:Es; [|discriminate|discriminate].
        apply strip_Ok in Es. rewrite Es. cbn [mbind res_bind] in *. injection E1 as <-. exists nodes'. split; [reflexivity|]. exists str'. split.
        * eapply TI_ext; [|exact E2]. intros s. cbv beta. unfold kept. rewrite filter_app, filter_cons_True, filter_nil by (split; assumption). rewrite last_index_snoc. reflexivity.
        * apply Hstr. rewrite valid_part_all by exact Hx2. exact E3.
      + destruct x as [s i]. destruct (insert_rejected str nodes (last_index (kept d)) s i H1 Hx) as (str' & nodes' & E1 & E2 & E3).
        unfold caught. cbn [fst snd] in *. rewrite E1. cbn [mbind res_bind]. exists nodes'. split; [reflexivity|]. exists str'. split; [|apply Hstr; exact E3].
        unfold kept in *. rewrite filter_app, filter_cons_False, filter_nil, app_nil_r by exact Hx. exact E2.
    - exists str, nodes. auto.
  Qed.

  Lemma kept_nil ins : last_index (kept ins) [] = None.
  Proof.
    destruct (last_index (kept ins) []) as [k|] eqn:Ek; [|reflexivity]. apply last_index_in in Ek. unfold kept in Ek. apply elem_of_list_filter in Ek as [[H _] _]. contradiction.
  Qed.
  Lemma aho_of_caught_ok n ins : exists str a, aho_of_caught off N n ins = Ok a /\ ah_n a = n /\ AK off N str (last_index (kept ins)) (ah_nodes a) /\
    str !! 0 = Some [] /\ NoDup str /\ (forall s c, s ++ [c] ∈ str -> s ∈ str) /\ (forall s k, last_index (kept ins) s = Some k -> s ∈ str) /\ (forall s, s ∈ str <-> tried ins s).
  Proof.
    destruct (caught_ok n ins) as (str & nodes & E & TH & Hl). unfold aho_of_caught. rewrite E. cbn [mbind res_bind].
    pose proof TH as [Hlen Hroot Hnd Hpre Halph HE Hnode].
    destruct (build_ok off N str (last_index (kept ins)) Hroot Hnd Hpre Halph HE (kept_nil ins) nodes TH n) as (a & Ea & Hn & A). exists str, a. auto 10.
  Qed.
End trie.
