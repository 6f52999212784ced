(** A release build of AhoCorasick does what the dev build with OFFSET 0 does on renamed bytes. *)
From Verif Require Import Prelude IntModel UtilModel AhoSpec AhoModel AhoStr AhoProps AhoReleaseSpec AhoReleaseModel.

Lemma letter_range off c : letter_release off c < 256.
Proof. unfold letter_release, wrap. cbn [it_min it_bits u8 it_signed]. pose proof (Z.mod_pos_bound (Z.of_nat c - Z.of_nat off - 0) (2 ^ 8)). lia. Qed.
Lemma letter_eq off c : off < 256 -> c < 256 -> c = (off + letter_release off c) mod 256.
Proof.
  intros Ho Hc. apply Nat2Z.inj. rewrite Nat2Z.inj_mod, Nat2Z.inj_add. unfold letter_release, wrap. cbn [it_min it_bits u8 it_signed].
  pose proof (Z.mod_pos_bound (Z.of_nat c - Z.of_nat off - 0) (2 ^ 8)) as Hb. rewrite Z2Nat.id by lia. change (Z.of_nat 256) with (2 ^ 8)%Z.
  rewrite Z.add_0_r, Z.sub_0_r, Zplus_mod_idemp_r. replace (Z.of_nat off + (Z.of_nat c - Z.of_nat off))%Z with (Z.of_nat c) by lia. rewrite Z.mod_small by lia. reflexivity.
Qed.
Lemma letter_unique off k : off < 256 -> letter_release off ((off + k) mod 256) = k mod 256.
Proof.
  intros Ho. apply Nat2Z.inj. unfold letter_release, wrap. cbn [it_min it_bits u8 it_signed].
  rewrite Z2Nat.id by (pose proof (Z.mod_pos_bound (Z.of_nat ((off + k) mod 256) - Z.of_nat off - 0) (2 ^ 8)); lia).
  rewrite !Nat2Z.inj_mod, Nat2Z.inj_add. change (Z.of_nat 256) with (2 ^ 8)%Z. rewrite Z.add_0_r, Z.sub_0_r, Zminus_mod_idemp_l. f_equal. lia.
Qed.
Lemma letter_inj off c c' : off < 256 -> c < 256 -> c' < 256 -> letter_release off c = letter_release off c' -> c = c'.
Proof. intros Ho Hc Hc' E. rewrite (letter_eq off c), (letter_eq off c'), E by assumption. reflexivity. Qed.
Lemma is_letter_iff off N c : off < 256 -> c < 256 -> is_letter off N c <-> 0 <= letter_release off c < 0 + N.
Proof.
  intros Ho Hc. split.
  - intros (k & Hk & ->). rewrite letter_unique by exact Ho. pose proof (Nat.mod_le k 256). lia.
  - intros [_ H]. exists (letter_release off c). split; [lia|]. apply letter_eq; assumption.
Qed.

Section tr.
  Context (off N : nat) (Ho : off < 256).
  Notation tr := (letter_release off).
  Definition tr_ins (ins : list (list nat * nat)) : list (list nat * nat) := map (fun x => (map tr x.1, x.2)) ins.

  Lemma rfor_map {A B S} (f : A -> B) (l : list A) (b : B -> S -> res S) s : rfor (map f l) b s = rfor l (fun x => b (f x)) s.
  Proof. revert s. induction l as [|x l IH]; intros s; cbn; [reflexivity|]. destruct (b (f x) s); cbn; auto. Qed.
  Lemma rfor_ext {A S} (l : list A) (b b' : A -> S -> res S) s : (forall x s, b x s = b' x s) -> rfor l b s = rfor l b' s.
  Proof. intros H. revert s. induction l as [|x l IH]; intros s; cbn; [reflexivity|]. rewrite H. destruct (b' x s); cbn; auto. Qed.
  Lemma letter0 x : letter 0 x = Ok x.
  Proof. unfold letter, nsub. cbn. rewrite Nat.sub_0_r. reflexivity. Qed.
  Lemma insert_step_tr c st : insert_step_release off N c st = insert_step 0 N (tr c) st.
  Proof. destruct st as [nodes p]. unfold insert_step_release, insert_step. rewrite letter0. reflexivity. Qed.
  Lemma insert_tr a s i : aho_insert_release off N a s i = aho_insert 0 N a (map tr s) i.
  Proof. unfold aho_insert_release, aho_insert. rewrite map_length, rfor_map. rewrite (rfor_ext s _ (fun c => insert_step 0 N (tr c))) by (intros; apply insert_step_tr). reflexivity. Qed.
  Lemma of_tr n ins : aho_of_release off N n ins = aho_of 0 N n (tr_ins ins).
  Proof. unfold aho_of_release, aho_of, aho_inserts, tr_ins. rewrite rfor_map. cbn [fst snd]. rewrite (rfor_ext ins _ (fun x a => aho_insert 0 N a (map tr x.1) x.2)) by (intros; apply insert_tr). reflexivity. Qed.
  Lemma from_tr patterns : aho_from_release off N patterns = aho_of_release off N (length patterns) (numbered patterns).
  Proof.
    unfold aho_from_release, aho_of_release, numbered, range. rewrite Nat.sub_0_r.
    pose proof (rfor_numbered (fun s i a => aho_insert_release off N a s i) patterns [] (aho_new N (length patterns))) as H. cbn [app length Nat.add] in H. rewrite H. reflexivity.
  Qed.
  Lemma go_tr a p c : aho_go_release off a p c = aho_go 0 a p (tr c).
  Proof. unfold aho_go_release, aho_go. destruct (vget (ah_nodes a) p); cbn [mbind res_bind]; [|reflexivity|reflexivity]. rewrite letter0. reflexivity. Qed.
  Lemma find_tr a text : aho_find_release off a text = aho_find 0 a (map tr text).
  Proof. unfold aho_find_release, aho_find. rewrite rfor_map. erewrite rfor_ext; [reflexivity|]. intros c st. rewrite go_tr. reflexivity. Qed.
  Lemma find_all_tr a text : aho_find_all_release off a text = aho_find_all 0 a (map tr text).
  Proof. unfold aho_find_all_release, aho_find_all. rewrite rfor_map. erewrite rfor_ext; [reflexivity|]. intros c st. rewrite go_tr. reflexivity. Qed.
  Lemma find_cnt_tr a text : aho_find_cnt_release off a text = aho_find_cnt 0 a (map tr text).
  Proof. unfold aho_find_cnt_release, aho_find_cnt. rewrite rfor_map. erewrite rfor_ext; [reflexivity|]. intros c st. rewrite go_tr. reflexivity. Qed.

  (** The renaming keeps the meaning. *)
  Lemma tr_inj s s' : bytes s -> bytes s' -> map tr s = map tr s' -> s = s'.
  Proof.
    intros H. revert s'. induction H as [|c s Hc Hs IH]; intros [|c' s'] H' E; try discriminate; [reflexivity|]. apply Forall_cons in H' as [Hc' Hs']. cbn in E. injection E as E1 E2.
    f_equal; [apply (letter_inj off); assumption|apply IH; assumption].
  Qed.
  Lemma letters_tr s : bytes s -> letters off N s <-> in_alphabet 0 N (map tr s).
  Proof.
    intros H. unfold letters, in_alphabet. rewrite Forall_map. induction H as [|c s Hc Hs IH]; [split; constructor|]. rewrite !Forall_cons, IH. pose proof (is_letter_iff off N c Ho Hc). cbn [compose]. tauto.
  Qed.
  Definition bytes_ins (ins : list (list nat * nat)) : Prop := Forall (fun x => bytes x.1) ins.
  Lemma insertable_tr ins : bytes_ins ins -> (Forall (fun x : list nat * nat => x.1 <> [] /\ letters off N x.1) ins <-> Forall (insertable 0 N) (tr_ins ins)).
  Proof.
    intros H. unfold tr_ins. rewrite Forall_map. induction H as [|x ins Hx H IH]; [split; constructor|]. rewrite !Forall_cons, IH. change (insertable 0 N (map tr x.1, x.2)) with (map tr x.1 <> [] /\ in_alphabet 0 N (map tr x.1)).
    rewrite (letters_tr x.1 Hx). destruct x as [[|c s] k]; cbn [fst map]; intuition congruence.
  Qed.
  Lemma last_index_cons x ins s : last_index (ins ++ [x]) s = if decide (x.1 = s) then Some x.2 else last_index ins s.
  Proof. unfold last_index. rewrite foldl_app. reflexivity. Qed.
  Lemma last_index_tr ins s : bytes_ins ins -> bytes s -> last_index (tr_ins ins) (map tr s) = last_index ins s.
  Proof.
    intros H Hs. induction ins as [|x ins IH] using rev_ind; [reflexivity|]. apply Forall_app in H as [H Hx]. apply Forall_cons in Hx as [Hx _]. unfold tr_ins. rewrite map_app. cbn [map].
    rewrite !last_index_cons. cbn [fst snd]. fold (tr_ins ins). rewrite IH by exact H. destruct (decide (x.1 = s)) as [->|Hne]; [rewrite decide_True by reflexivity; reflexivity|].
    rewrite decide_False; [reflexivity|]. intros E. apply Hne. apply tr_inj; assumption.
  Qed.
  Lemma suffixes_tr s : suffixes (map tr s) = map (map tr) (suffixes s).
  Proof. induction s as [|c s IH]; [reflexivity|]. cbn [map suffixes]. f_equal. exact IH. Qed.
  Lemma bytes_suffix s t : bytes t -> s `suffix_of` t -> bytes s.
  Proof. intros H [k ->]. apply Forall_app in H as [_ H]. exact H. Qed.
  Lemma omap_same {A B C} (f : B -> option C) (g : A -> B) (h : A -> option C) (l : list A) : (forall x, x ∈ l -> f (g x) = h x) -> omap f (map g l) = omap h l.
  Proof.
    induction l as [|x l IH]; intros H; [reflexivity|]. specialize (IH ltac:(intros y Hy; apply H; right; exact Hy)). simpl. rewrite (H x) by left. destruct (h x); [f_equal|]; exact IH.
  Qed.
  Lemma matches_tr ins t : bytes_ins ins -> bytes t -> matches (tr_ins ins) (map tr t) = matches ins t.
  Proof.
    intros H Ht. unfold matches. rewrite suffixes_tr. assert (forall s, s ∈ suffixes t -> bytes s) as Hs by (intros s Hs; eapply bytes_suffix; [exact Ht|apply elem_suffixes; exact Hs]).
    apply omap_same. intros s Hin. apply last_index_tr; [exact H|apply Hs; exact Hin].
  Qed.
  Lemma take_tr i t : take i (map tr t) = map tr (take i t).
  Proof. apply firstn_map. Qed.
  Lemma bytes_take i t : bytes t -> bytes (take i t).
  Proof. apply Forall_take. Qed.
  Lemma suffix_tr s t : s `suffix_of` t -> map tr s `suffix_of` map tr t.
  Proof. intros [k ->]. exists (map tr k). apply map_app. Qed.
  Lemma suffix_of_map (f : nat -> nat) s t : s `suffix_of` map f t -> exists s0, s = map f s0 /\ s0 `suffix_of` t.
  Proof. intros [k E]. apply map_eq_app in E as (k0 & s0 & -> & _ & <-). exists s0. split; [reflexivity|]. exists k0. reflexivity. Qed.
  Lemma live_tr ins s : bytes_ins ins -> bytes s -> (exists x, x ∈ ins /\ s `prefix_of` x.1) <-> (exists x, x ∈ tr_ins ins /\ map tr s `prefix_of` x.1).
  Proof.
    intros H Hs. unfold tr_ins. split.
    - intros (x & Hx & [k E]). exists (map tr x.1, x.2). split; [apply elem_of_list_In, in_map_iff; exists x; split; [reflexivity|]; apply elem_of_list_In; exact Hx|]. cbn [fst]. rewrite E, map_app. exists (map tr k). reflexivity.
    - intros (y & Hy & [k E]). apply elem_of_list_In, in_map_iff in Hy as (x & <- & Hx). apply elem_of_list_In in Hx. cbn [fst] in E. exists x. split; [exact Hx|].
      apply map_eq_app in E as (s0 & k0 & E & E0 & _). pose proof (proj1 (Forall_forall _ _) H x Hx) as Hb. cbn beta in Hb. rewrite E in Hb. apply Forall_app in Hb as [Hb _].
      assert (s0 = s) as -> by (apply tr_inj; assumption). exists k0. exact E.
  Qed.
  Lemma longest_live_tr ins t s' : bytes_ins ins -> bytes t -> longest_live (tr_ins ins) (map tr t) s' -> exists s, s' = map tr s /\ bytes s /\ longest_live ins t s.
  Proof.
    intros H Ht (L1 & L2 & L3). destruct (suffix_of_map tr s' t L1) as (s & -> & Hs). assert (bytes s) as Hb by (apply (bytes_suffix _ t); assumption). exists s. split; [reflexivity|]. split; [exact Hb|].
    split; [exact Hs|]. split.
    - destruct L2 as [E|E]; [left; destruct s; [reflexivity|discriminate]|right; apply (live_tr ins _ H); assumption].
    - intros s2 S1 S2. assert (bytes s2) as Hb2 by (apply (bytes_suffix _ t); assumption). specialize (L3 (map tr s2) (suffix_tr _ _ S1)). rewrite !map_length in L3. apply L3.
      destruct S2 as [->|S2]; [left; reflexivity|right; apply (live_tr ins _ H); assumption].
  Qed.
End tr.
