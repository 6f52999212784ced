From Verif Require Import Prelude MatchingModel MatchingSpec MatchRelSpec CoverSpec CoverProof ChainSpec.
From stdpp Require Import relations.

Fixpoint links (p : list nat) : list (nat * nat) := match p with a :: ((b :: _) as t) => (a, b) :: links t | _ => [] end.
Lemma links_cons a b t : links (a :: b :: t) = (a, b) :: links (b :: t).
Proof. reflexivity. Qed.
Lemma linked_links E p : linked E p <-> forall e, e ∈ links p -> e ∈ E.
Proof.
  induction p as [|a [|b t] IH]; [cbn; split; [intros _ e H; inversion H|auto]..|]. rewrite links_cons. change (linked E (a :: b :: t)) with ((a, b) ∈ E /\ linked E (b :: t)). rewrite IH. split.
  - intros [H1 H2] e He. apply elem_of_cons in He as [->|He]; auto.
  - intros H. split; [apply H; left|intros e He; apply H; right; exact He].
Qed.
Lemma links_snd p : (links p).*2 = tail p.
Proof. induction p as [|a [|b t] IH]; [reflexivity..|]. rewrite links_cons. cbn [fmap list_fmap tail snd] in *. f_equal. exact IH. Qed.
Lemma links_fst p : (links p).*1 `sublist_of` p.
Proof. induction p as [|a [|b t] IH]; [constructor|constructor; constructor|]. rewrite links_cons. cbn [fmap list_fmap fst]. constructor. exact IH. Qed.
Lemma links_length p : p <> [] -> S (length (links p)) = length p.
Proof. induction p as [|a [|b t] IH]; [congruence|reflexivity|]. intros _. rewrite links_cons. cbn [length] in *. rewrite IH by discriminate. reflexivity. Qed.
Lemma links_app p u v q : links ((p ++ [u]) ++ v :: q) = links (p ++ [u]) ++ (u, v) :: links (v :: q).
Proof.
  induction p as [|a [|b t] IH]; [reflexivity..|]. cbn [app] in *. rewrite !links_cons. cbn [app]. f_equal. exact IH.
Qed.
Lemma ends_last p u : u ∈ p -> u ∉ (links p).*1 -> exists p1, p = p1 ++ [u].
Proof.
  induction p as [|a [|b t] IH]; intros Hu Hn; [inversion Hu|apply elem_of_list_singleton in Hu as ->; exists []; reflexivity|].
  rewrite links_cons in Hn. cbn [fmap list_fmap fst] in Hn. apply not_elem_of_cons in Hn as [H1 H2]. apply elem_of_cons in Hu as [Hu|Hu]; [contradiction|]. destruct (IH Hu H2) as [p1 ->]. exists (a :: p1). reflexivity.
Qed.
Lemma starts_first p v : v ∈ p -> v ∉ (links p).*2 -> exists q, p = v :: q.
Proof. rewrite links_snd. destruct p as [|a t]; intros Hv Hn; [inversion Hv|]. apply elem_of_cons in Hv as [->|Hv]; [eauto|contradiction]. Qed.
Lemma along E u t : forall v, linked E (v :: t) -> u ∈ v :: t -> rtc (fun a b => (a, b) ∈ E) v u.
Proof.
  induction t as [|b t IH]; intros v Hl Hu; apply elem_of_cons in Hu as [->|Hu]; try reflexivity; [inversion Hu|]. destruct Hl as [H1 H2]. eapply rtc_l; [exact H1|apply IH; assumption].
Qed.
Lemma concat_perm {A} (ps qs : list (list A)) : ps ≡ₚ qs -> concat ps ≡ₚ concat qs.
Proof. induction 1 as [|p ps qs _ IH|p q ps|ps qs rs _ IH1 _ IH2]; cbn; [reflexivity|rewrite IH; reflexivity|rewrite !app_assoc, (Permutation_app_comm p q); reflexivity|etransitivity; eassumption]. Qed.
Definition all_links ps := concat (map links ps).
Lemma all_links_perm ps qs : ps ≡ₚ qs -> all_links ps ≡ₚ all_links qs.
Proof. intros H. apply concat_perm, Permutation_map, H. Qed.
Lemma in_all ps p x : p ∈ ps -> x ∈ links p -> x ∈ all_links ps.
Proof. intros Hp Hx. apply elem_of_list_In, in_concat. exists (links p). split; [apply in_map, elem_of_list_In, Hp|apply elem_of_list_In, Hx]. Qed.
Lemma all_fst ps : (all_links ps).*1 `sublist_of` concat ps.
Proof. induction ps as [|p ps IH]; [constructor|]. unfold all_links. cbn [map concat]. rewrite fmap_app. apply sublist_app; [apply links_fst|exact IH]. Qed.
Lemma all_snd ps : (all_links ps).*2 `sublist_of` concat ps.
Proof. induction ps as [|p ps IH]; [constructor|]. unfold all_links. cbn [map concat]. rewrite fmap_app. apply sublist_app; [rewrite links_snd; destruct p; [constructor|apply sublist_cons; reflexivity]|exact IH]. Qed.
Lemma all_length ps : Forall (fun p => p <> []) ps -> length (all_links ps) + length ps = length (concat ps).
Proof. induction 1 as [|p ps Hp _ IH]; [reflexivity|]. unfold all_links in *. cbn [map concat length]. rewrite !app_length, <- (links_length p Hp). lia. Qed.

Lemma sub_NoDup {A} (l k : list A) : NoDup k -> l `sublist_of` k -> NoDup l.
Proof.
  intros Nd H. induction H as [|x l k H IH|x l k H IH]; [constructor|..]; apply NoDup_cons in Nd as [N1 N2]; [|auto]. apply NoDup_cons. split; [|auto]. intros Hx. apply N1. eapply elem_of_submseteq; [exact Hx|apply sublist_submseteq, H].
Qed.
(** A cover gives a matching. *)
Lemma cover_matching n E ps : path_cover n E ps -> exists M, matching E M /\ length M + length ps = n.
Proof.
  intros [Hp Hf]. exists (all_links ps). assert (Nd : NoDup (concat ps)) by (rewrite Hp; apply NoDup_seq). split; [split_and!|].
  - intros e He. apply elem_of_list_In, in_concat in He as (l & Hl & He). apply in_map_iff in Hl as (p & <- & Hin). rewrite Forall_forall in Hf. destruct (Hf p (proj2 (elem_of_list_In _ _) Hin)) as [_ H]. apply (proj1 (linked_links E p) H). apply elem_of_list_In, He.
  - eapply sub_NoDup; [exact Nd|apply all_fst].
  - eapply sub_NoDup; [exact Nd|apply all_snd].
  - rewrite all_length, (Permutation_length Hp), seq_length; [reflexivity|]. eapply Forall_impl; [exact Hf|]. intros p [H _]. exact H.
Qed.
(** In an acyclic graph a matching gives a cover. *)
Lemma matching_cover n E : acyclic E -> fits n n E -> forall M, matching E M -> exists ps, path_cover n E ps /\ all_links ps ≡ₚ M /\ length M + length ps = n.
Proof.
  intros Hac Hfit. induction M as [|[u v] M IH]; intros (M1 & M2 & M3).
  - exists (map (fun x => [x]) (seq 0 n)). assert (C : concat (map (fun x => [x]) (seq 0 n)) = seq 0 n) by (induction (seq 0 n) as [|x l I]; [reflexivity|]; cbn; f_equal; exact I). split; [split; [rewrite C; reflexivity|]|split].
    + apply Forall_map, Forall_forall. intros x _. split; [discriminate|exact I].
    + unfold all_links. rewrite map_map. induction (seq 0 n) as [|x l I]; [reflexivity|]. cbn. apply I.
      cbn in C. injection C as C. exact C.
    + rewrite map_length, seq_length. reflexivity.
  - cbn [fmap list_fmap fst snd] in M2, M3. apply NoDup_cons in M2 as [U1 U2]. apply NoDup_cons in M3 as [V1 V2].
    destruct IH as (ps & [Hp Hf] & Ha & Hlen); [split_and!; [intros e He; apply M1; right; exact He|assumption|assumption]|].
    pose proof (M1 (u, v) (elem_of_list_here _ _)) as Huv. destruct (Hfit u v Huv) as [Hu Hv].
    assert (Iu : u ∈ concat ps) by (rewrite Hp; apply elem_of_seq; lia). assert (Iv : v ∈ concat ps) by (rewrite Hp; apply elem_of_seq; lia).
    apply elem_of_list_In, in_concat in Iu as (p & Ip & Iu). apply elem_of_list_In in Ip, Iu. apply elem_of_list_In, in_concat in Iv as (q & Iq & Iv). apply elem_of_list_In in Iq, Iv.
    assert (Lp : exists p1, p = p1 ++ [u]).
    { apply ends_last; [exact Iu|]. intros H. apply U1. rewrite <- Ha. apply elem_of_list_fmap in H as (e & -> & He). apply elem_of_list_fmap_1, (in_all ps p); assumption. }
    assert (Lq : exists q1, q = v :: q1).
    { apply starts_first; [exact Iv|]. intros H. apply V1. rewrite <- Ha. apply elem_of_list_fmap in H as (e & -> & He). apply elem_of_list_fmap_1, (in_all ps q); assumption. }
    destruct Lp as [p1 Ep], Lq as [q1 Eq]. rewrite Forall_forall in Hf. pose proof (Hf p Ip) as [_ Kp]. pose proof (Hf q Iq) as [_ Kq].
    destruct (elem_of_Permutation ps p) as [Hperm _]. destruct (Hperm Ip) as [ps' P1]. assert (Iq' : q ∈ p :: ps') by (rewrite <- P1; exact Iq). apply elem_of_cons in Iq' as [Epq|Iq'].
    { exfalso. apply (Hac u). eapply tc_rtc_r; [apply tc_once; exact Huv|]. subst q. apply (along E u q1 v Kq). rewrite Epq. exact Iu. }
    destruct (elem_of_Permutation ps' q) as [Hperm' _]. destruct (Hperm' Iq') as [ps2 P2].
    assert (P3 : ps ≡ₚ p :: q :: ps2) by (rewrite P1, P2; reflexivity).
    assert (Hl : links (p ++ q) = links p ++ (u, v) :: links q) by (rewrite Ep, Eq; apply links_app).
    exists ((p ++ q) :: ps2). split; [split|split].
    + rewrite <- Hp, (concat_perm _ _ P3). cbn [concat]. rewrite app_assoc. reflexivity.
    + apply Forall_cons. split; [split; [rewrite Ep; destruct p1; discriminate|]|].
      * apply linked_links. intros e He. rewrite Hl in He. apply elem_of_app in He as [He|He]; [apply (proj1 (linked_links E p) Kp), He|]. apply elem_of_cons in He as [->|He]; [exact Huv|apply (proj1 (linked_links E q) Kq), He].
      * apply Forall_forall. intros x Hx. apply Hf. rewrite P3. right. right. exact Hx.
    + unfold all_links in *. cbn [map concat]. rewrite Hl, <- Ha, (all_links_perm _ _ P3). unfold all_links. cbn [map concat]. rewrite <- app_assoc. cbn [app]. rewrite <- Permutation_middle. reflexivity.
    + apply Permutation_length in P3. cbn [length] in *. lia.
Qed.

(** On a path of a transitive graph any two vertices are joined. *)
Lemma path_from E a t : transitive_edges E -> linked E (a :: t) -> forall y, y ∈ t -> (a, y) ∈ E.
Proof.
  intros Ht. revert a. induction t as [|b t IH]; intros a Hl y Hy; [inversion Hy|]. destruct Hl as [H1 H2]. apply elem_of_cons in Hy as [->|Hy]; [exact H1|]. apply (Ht a b y); [exact H1|]. apply IH; assumption.
Qed.
Lemma path_joined E p : transitive_edges E -> linked E p -> forall x y, x ∈ p -> y ∈ p -> x = y \/ (x, y) ∈ E \/ (y, x) ∈ E.
Proof.
  intros Ht. induction p as [|a t IH]; intros Hl x y Hx Hy; [inversion Hx|]. apply elem_of_cons in Hx as [->|Hx], Hy as [->|Hy].
  - auto.
  - right. left. apply (path_from E a t Ht Hl y Hy).
  - right. right. apply (path_from E a t Ht Hl x Hx).
  - apply IH; auto. destruct t; [exact I|apply Hl].
Qed.
Lemma meets_once (ps : list (list nat)) : forall A, NoDup A -> (forall x, x ∈ A -> x ∈ concat ps) -> (forall p x y, p ∈ ps -> x ∈ A -> y ∈ A -> x ∈ p -> y ∈ p -> x = y) -> length A <= length ps.
Proof.
  induction ps as [|p ps IH]; intros A Nd Hin Ho; [destruct A as [|x A]; [auto|exfalso; specialize (Hin x (elem_of_list_here _ _)); inversion Hin]|].
  destruct (decide (Exists (fun x => x ∈ p) A)) as [Hx|Hx].
  - apply Exists_exists in Hx as (x & Hx & Hxp). destruct (elem_of_Permutation A x) as [Hperm _]. destruct (Hperm Hx) as [A' P]. rewrite (Permutation_length P). rewrite P in Nd. apply NoDup_cons in Nd as [N1 N2]. cbn [length]. apply le_n_S, IH; [exact N2| |].
    + intros y Hy. assert (Hya : y ∈ A) by (rewrite P; right; exact Hy). specialize (Hin y Hya). cbn [concat] in Hin. apply elem_of_app in Hin as [Hin|Hin]; [|exact Hin]. rewrite (Ho p x y (elem_of_list_here _ _) Hx Hya Hxp Hin) in N1. contradiction.
    + intros q y z Hq Hy Hz. apply (Ho q y z); [right; exact Hq|rewrite P; right; assumption..].
  - cbn [length]. apply le_S, IH; [exact Nd| |].
    + intros x Hxa. specialize (Hin x Hxa). cbn [concat] in Hin. apply elem_of_app in Hin as [Hin|Hin]; [|exact Hin]. exfalso. apply Hx, Exists_exists. eauto.
    + intros q y z Hq. apply (Ho q y z). right. exact Hq.
Qed.
Lemma antichain_le n E A ps : transitive_edges E -> antichain n E A -> path_cover n E ps -> length A <= length ps.
Proof.
  intros Ht (A1 & A2 & A3) [Hp Hf]. apply meets_once; [exact A1| |].
  - intros x Hx. rewrite Hp. apply elem_of_seq. specialize (A2 x Hx). lia.
  - intros p x y Hin Hx Hy Hxp Hyp. rewrite Forall_forall in Hf. destruct (Hf p Hin) as [_ Hl]. destruct (path_joined E p Ht Hl x y Hxp Hyp) as [H|[H|H]]; [exact H|exfalso; exact (A3 x y Hx Hy H)|exfalso; exact (A3 y x Hy Hx H)].
Qed.
Lemma cover_antichain n E L R : covers E L R -> exists A, antichain n E A /\ n <= length A + (length L + length R).
Proof.
  intros Hc. exists (filter (fun x => x ∉ L /\ x ∉ R) (seq 0 n)). split; [split_and!|].
  - apply NoDup_filter, NoDup_seq.
  - intros x Hx. apply elem_of_list_filter in Hx as [_ Hx]. apply elem_of_seq in Hx. lia.
  - intros x y Hx Hy Hxy. apply elem_of_list_filter in Hx as [[H1 _] _], Hy as [[_ H2] _]. destruct (Hc x y Hxy); contradiction.
  - rewrite <- !app_length. rewrite <- (seq_length n 0) at 1. apply NoDup_incl_length; [apply NoDup_ListNoDup, NoDup_seq|]. intros x Hx. apply elem_of_list_In in Hx. apply elem_of_list_In. rewrite !elem_of_app, elem_of_list_filter.
    destruct (decide (x ∈ L)); [tauto|]. destruct (decide (x ∈ R)); tauto.
Qed.
