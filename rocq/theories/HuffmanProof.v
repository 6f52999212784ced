From Coq Require Import Sorting.Sorted.
From Verif Require Import Prelude ArraySpec IntModel IMathProof HeapModel HeapSpec HeapProps HeapUseModel HeapUseProof HuffmanModel HuffmanSpec.
Open Scope Z_scope.

(** ** Depths of the leaves of binary trees *)
Inductive shape : list nat -> Prop :=
| shape_one : shape [0%nat]
| shape_split d ds : shape (d :: ds) -> shape (S d :: S d :: ds)
| shape_perm ds es : ds ≡ₚ es -> shape ds -> shape es.

Lemma shape_max ds : shape ds -> (2 <= length ds)%nat -> exists M es, ds ≡ₚ S M :: S M :: es /\ shape (M :: es) /\ forall d, d ∈ ds -> (d <= S M)%nat.
Proof.
  induction 1 as [|d ds S IH|ds es P S IH]; intros L.
  - cbn in L. lia.
  - destruct (decide (Forall (fun x => x <= Datatypes.S d)%nat ds)) as [F|F].
    + exists d, ds. split; [reflexivity|]. split; [exact S|]. rewrite Forall_forall in F. intros x Hx. rewrite !elem_of_cons in Hx. destruct Hx as [->|[->|Hx]]; [lia..|auto].
    + apply not_Forall_Exists in F; [|intros x; solve_decision]. apply Exists_exists in F as (m & Hm & Hlt). unfold compose in Hlt.
      assert (L2 : (2 <= length (d :: ds))%nat) by (destruct ds; [inversion Hm|cbn; lia]).
      destruct (IH L2) as (M & es & P & Se & Mx). assert (HM : (m <= Datatypes.S M)%nat) by (apply Mx; right; exact Hm).
      assert (Hd : d ∈ es). { assert (d ∈ Datatypes.S M :: Datatypes.S M :: es) as Hd by (rewrite <- P; left). rewrite !elem_of_cons in Hd. destruct Hd as [->|[->|Hd]]; [lia..|exact Hd]. }
      apply elem_of_Permutation in Hd as [fs Hfs]. exists M, (Datatypes.S d :: Datatypes.S d :: fs). split_and!.
      * assert (Q : ds ≡ₚ Datatypes.S M :: Datatypes.S M :: fs). { apply (Permutation_cons_inv (a := d)). rewrite P, Hfs. rewrite (perm_swap _ d). constructor. rewrite (perm_swap _ d). reflexivity. }
        rewrite Q. change ([Datatypes.S d; Datatypes.S d] ++ [Datatypes.S M; Datatypes.S M] ++ fs ≡ₚ [Datatypes.S M; Datatypes.S M] ++ [Datatypes.S d; Datatypes.S d] ++ fs). rewrite !app_assoc. apply Permutation_app_tail, Permutation_app_comm.
      * apply (shape_perm (Datatypes.S d :: Datatypes.S d :: M :: fs)).
        { rewrite (perm_swap M). rewrite (perm_swap M). reflexivity. }
        apply shape_split. apply (shape_perm (M :: es)); [|exact Se]. rewrite Hfs. apply perm_swap.
      * intros x Hx. rewrite !elem_of_cons in Hx. destruct Hx as [->|[->|Hx]]; [lia..|]. apply Mx. right. exact Hx.
  - rewrite <- P in L. destruct (IH L) as (M & fs & Q & Sf & Mx). exists M, fs. split; [rewrite <- P; exact Q|]. split; [exact Sf|]. intros d Hd. apply Mx. rewrite P. exact Hd.
Qed.
Lemma shape_graft ds : shape ds -> forall d es, shape (d :: es) -> shape (map (fun k => d + k)%nat ds ++ es).
Proof.
  induction 1 as [|k ds S IH|ds ds' P S IH]; intros d es H.
  - cbn. rewrite Nat.add_0_r. exact H.
  - cbn. rewrite !Nat.add_succ_r. apply shape_split. apply (IH d es H).
  - apply (shape_perm (map (fun k => d + k)%nat ds ++ es)); [apply Permutation_app_tail, Permutation_map, P|apply IH, H].
Qed.
Lemma shape_join ds es : shape ds -> shape es -> shape (map S ds ++ map S es).
Proof.
  intros H K. apply (shape_perm (map S es ++ map S ds)); [apply Permutation_app_comm|]. apply (shape_graft es K 1%nat). apply (shape_perm (map S ds ++ [1%nat])); [symmetry; apply Permutation_cons_append|].
  apply (shape_graft ds H 1%nat). apply shape_split, shape_one.
Qed.

(** ** Cost of letters at depths *)
Definition cost (l : list (Z * nat)) : Z := foldr Z.add 0 (map (fun x => x.1 * Z.of_nat x.2) l).
Lemma cost_cons x l : cost (x :: l) = x.1 * Z.of_nat x.2 + cost l.
Proof. reflexivity. Qed.
Lemma cost_perm l k : l ≡ₚ k -> cost l = cost k.
Proof. induction 1; rewrite ?cost_cons; lia. Qed.
Lemma cost_app l k : cost (l ++ k) = cost l + cost k.
Proof. induction l as [|x l IH]; [reflexivity|]. cbn [app]. rewrite !cost_cons, IH. lia. Qed.
Lemma snd_pick (l : list (Z * nat)) d es : map snd l ≡ₚ d :: es -> exists w k, l ≡ₚ (w, d) :: k /\ map snd k ≡ₚ es.
Proof.
  intros P. assert (d ∈ map snd l) as Hd by (rewrite P; left). apply elem_of_list_In, in_map_iff in Hd as ([w d'] & E & Hi). cbn in E. subst d'.
  apply elem_of_list_In, elem_of_Permutation in Hi as [k Hk]. exists w, k. split; [exact Hk|]. apply (Permutation_cons_inv (a := d)). rewrite <- P, Hk. reflexivity.
Qed.
Lemma fst_pick (l : list (Z * nat)) w es : map fst l ≡ₚ w :: es -> exists d k, l ≡ₚ (w, d) :: k /\ map fst k ≡ₚ es.
Proof.
  intros P. assert (w ∈ map fst l) as Hd by (rewrite P; left). apply elem_of_list_In, in_map_iff in Hd as ([w' d] & E & Hi). cbn in E. subst w'.
  apply elem_of_list_In, elem_of_Permutation in Hi as [k Hk]. exists d, k. split; [exact Hk|]. apply (Permutation_cons_inv (a := w)). rewrite <- P, Hk. reflexivity.
Qed.
(** a letter at the greatest depth changes places with a rarest one *)
Lemma exchange x D l a ws : map fst ((x, D) :: l) ≡ₚ a :: ws -> (forall y, y ∈ ws -> a <= y) -> (forall d, d ∈ map snd l -> (d <= D)%nat) ->
  exists l', map fst l' ≡ₚ ws /\ map snd l' ≡ₚ map snd l /\ cost l' + a * Z.of_nat D <= cost l + x * Z.of_nat D.
Proof.
  intros P Mn Mx. destruct (Z.eq_dec a x) as [<-|Ne].
  - exists l. split; [apply (Permutation_cons_inv (a := a)), P|]. split; [reflexivity|lia].
  - assert (x ∈ ws) as Hx. { assert (x ∈ a :: ws) as Hx by (rewrite <- P; left). apply elem_of_cons in Hx as [->|Hx]; [congruence|exact Hx]. }
    assert (a ∈ map fst l) as Ha. { assert (a ∈ map fst ((x, D) :: l)) as Ha by (rewrite P; left). cbn in Ha. apply elem_of_cons in Ha as [->|Ha]; [congruence|exact Ha]. }
    apply elem_of_Permutation in Ha as [es Hes]. destruct (fst_pick l a es Hes) as (d & k & Hk & Hes'). exists ((x, d) :: k). split_and!.
    + cbn. apply (Permutation_cons_inv (a := a)). rewrite <- P. cbn. rewrite Hk. cbn. apply perm_swap.
    + rewrite Hk. reflexivity.
    + rewrite (cost_perm _ _ Hk), !cost_cons. cbn. specialize (Mn x Hx). assert (d <= D)%nat by (apply Mx; rewrite Hk; left). nia.
Qed.

(** ** Huffman's algorithm on bags *)
Inductive huff : list Z -> Z -> Prop :=
| huff_one w : huff [w] 0
| huff_merge a b ws ws' c : ws' ≡ₚ a :: b :: ws -> (forall y, y ∈ b :: ws -> a <= y) -> (forall y, y ∈ ws -> b <= y) -> huff (a + b :: ws) c -> huff ws' (a + b + c)
| huff_perm ws ws' c : ws ≡ₚ ws' -> huff ws c -> huff ws' c.

Lemma huff_lower ws c : huff ws c -> forall l, map fst l ≡ₚ ws -> shape (map snd l) -> c <= cost l.
Proof.
  induction 1 as [w|a b ws ws' c P Ha Hb H IH|ws ws' c P H IH]; intros l Pl Sl.
  - destruct l as [|[w' d] [|]]; [apply Permutation_nil_l in Pl; discriminate| |apply Permutation_length in Pl; discriminate].
    cbn in Sl. rewrite cost_cons. cbn. enough (d = 0%nat) as -> by lia.
    assert (G : forall ds, shape ds -> length ds = 1%nat -> ds = [0%nat]).
    { clear. induction 1 as [|d ds S IH|ds es P S IH]; intros L; [reflexivity|cbn in L; lia|]. rewrite <- P in L. rewrite (IH L) in P. apply Permutation_singleton_l in P. symmetry. exact P. }
    apply G in Sl; [congruence|reflexivity].
  - assert (L : (2 <= length (map snd l))%nat). { rewrite map_length, <- (map_length fst), Pl, P. cbn. lia. }
    destruct (shape_max _ Sl L) as (M & es & Q & Se & Mx). destruct (snd_pick l (S M) _ Q) as (x & k & Hk & Hks).
    destruct (exchange x (S M) k a (b :: ws)) as (k' & F1 & S1 & C1).
    { rewrite <- P, <- Pl, Hk. reflexivity. }
    { exact Ha. }
    { intros d Hd. apply Mx. rewrite Hk. right. exact Hd. }
    rewrite Hks in S1. destruct (snd_pick k' (S M) es S1) as (y & m & Hm & Hms).
    destruct (exchange y (S M) m b ws) as (m' & F2 & S2 & C2).
    { rewrite <- F1, Hm. reflexivity. }
    { exact Hb. }
    { intros d Hd. apply Mx. rewrite Q. right. right. rewrite <- Hms. exact Hd. }
    assert (IH' : c <= cost ((a + b, M) :: m')).
    { apply IH; [cbn; rewrite F2; reflexivity|]. cbn. apply (shape_perm (M :: es)); [rewrite S2, Hms; reflexivity|exact Se]. }
    rewrite cost_cons in IH'. cbn [fst snd] in IH'. rewrite (cost_perm _ _ Hk), cost_cons. cbn [fst snd]. rewrite (cost_perm _ _ Hm), cost_cons in C1. cbn [fst snd] in C1. nia.
  - apply IH; [rewrite P; exact Pl|exact Sl].
Qed.
Lemma huff_upper ws c : huff ws c -> exists l, map fst l ≡ₚ ws /\ shape (map snd l) /\ cost l = c.
Proof.
  induction 1 as [w|a b ws ws' c P Ha Hb H (l & Pl & Sl & Cl)|ws ws' c P H (l & Pl & Sl & Cl)].
  - exists [(w, 0%nat)]. split; [reflexivity|]. split; [constructor|]. rewrite cost_cons. cbn. lia.
  - destruct (fst_pick l (a + b) ws Pl) as (d & k & Hk & Hks). exists ((a, S d) :: (b, S d) :: k). split_and!.
    + cbn. rewrite Hks, P. reflexivity.
    + cbn. apply shape_split. apply (shape_perm (map snd l)); [rewrite Hk; reflexivity|exact Sl].
    + rewrite !cost_cons. cbn [fst snd]. rewrite (cost_perm _ _ Hk), cost_cons in Cl. cbn [fst snd] in Cl. nia.
  - exists l. split; [rewrite Pl; exact P|auto].
Qed.

(** ** Codes *)
Local Notation apart := (fun x y : Z * list bool => ~ x.2 `prefix_of` y.2 /\ ~ y.2 `prefix_of` x.2).
Lemma code_perm l k : l ≡ₚ k -> prefix_code l -> prefix_code k.
Proof.
  unfold prefix_code. induction 1 as [|x l k P IH|x y l|l k m P IH Q IH']; intros H; auto.
  - inversion H as [|? ? F O]; subst. constructor; [rewrite <- P; exact F|auto].
  - inversion H as [|? ? F O]; subst. inversion O as [|? ? F' O']; subst. inversion F as [|? ? A F'']; subst. constructor; [constructor; [cbn beta in *; tauto|assumption]|]. constructor; assumption.
Qed.
Lemma code_app l k : prefix_code (l ++ k) -> prefix_code l /\ prefix_code k.
Proof.
  unfold prefix_code. induction l as [|x l IH]; cbn; intros H; [split; [constructor|exact H]|]. inversion H as [|? ? F O]; subst. apply Forall_app in F as [F _]. destruct (IH O). split; [constructor|]; assumption.
Qed.
Definition consb (b : bool) (x : Z * list bool) : Z * list bool := (x.1, b :: x.2).
Lemma code_consb b l : prefix_code (map (consb b) l) -> prefix_code l.
Proof.
  unfold prefix_code. induction l as [|x l IH]; cbn; intros H; [constructor|]. inversion H as [|? ? F O]; subst. constructor; [|auto]. rewrite Forall_forall in *. intros y Hy.
  specialize (F (consb b y)). cbn in F. destruct F as [F1 F2]; [apply elem_of_list_In, in_map, elem_of_list_In, Hy|]. split; intros Hp; [apply F1|apply F2]; apply prefix_cons, Hp.
Qed.
Lemma bits_cons x l : bits (x :: l) = x.1 * Z.of_nat (length x.2) + bits l.
Proof. reflexivity. Qed.
Lemma bits_perm l k : l ≡ₚ k -> bits l = bits k.
Proof. induction 1; rewrite ?bits_cons; lia. Qed.
Lemma bits_app l k : bits (l ++ k) = bits l + bits k.
Proof. induction l as [|x l IH]; [reflexivity|]. cbn [app]. rewrite !bits_cons, IH. lia. Qed.
Definition weight (ws : list Z) : Z := foldr Z.add 0 ws.
Lemma weight_perm l k : l ≡ₚ k -> weight l = weight k.
Proof. unfold weight. induction 1; cbn; lia. Qed.
Lemma weight_nonneg ws : Forall (fun w => 0 <= w) ws -> 0 <= weight ws.
Proof. unfold weight. induction 1; cbn; lia. Qed.
Lemma bits_consb b l : bits (map (consb b) l) = bits l + weight (map fst l).
Proof. induction l as [|x l IH]; [reflexivity|]. cbn [map]. rewrite !bits_cons, IH. cbn [consb fst snd length]. unfold weight. cbn. lia. Qed.
Lemma cost_deeper l : cost (map (fun x => (x.1, S x.2)) l) = cost l + weight (map fst l).
Proof. induction l as [|x l IH]; [reflexivity|]. cbn [map]. rewrite !cost_cons, IH. cbn [fst snd]. unfold weight. cbn. lia. Qed.
Lemma first_bit (l : list (Z * list bool)) : Forall (fun x => x.2 <> []) l -> exists l0 l1, l ≡ₚ map (consb false) l0 ++ map (consb true) l1.
Proof.
  induction 1 as [|[w [|b c]] l Hx F (l0 & l1 & P)]; [exists [], []; reflexivity|cbn in Hx; congruence|]. destruct b.
  - exists l0, ((w, c) :: l1). cbn. rewrite P. apply Permutation_middle.
  - exists ((w, c) :: l0), l1. cbn. rewrite P. reflexivity.
Qed.
Definition letters (l : list (Z * list bool)) : nat := foldr Nat.add 0%nat (map (fun x => length x.2) l).
Lemma letters_perm l k : l ≡ₚ k -> letters l = letters k.
Proof. unfold letters. induction 1; cbn; lia. Qed.
Lemma letters_app l k : letters (l ++ k) = (letters l + letters k)%nat.
Proof. unfold letters. induction l as [|x l IH]; [reflexivity|]. cbn in *. lia. Qed.
Lemma letters_consb b l : letters (map (consb b) l) = (letters l + length l)%nat.
Proof. unfold letters. induction l as [|x l IH]; [reflexivity|]. cbn in *. lia. Qed.
Lemma fst_consb b l : map fst (map (consb b) l) = map fst l.
Proof. rewrite map_map. reflexivity. Qed.
Lemma fst_deeper (l : list (Z * nat)) : map fst (map (fun x => (x.1, S x.2)) l) = map fst l.
Proof. rewrite map_map. reflexivity. Qed.
Lemma snd_deeper (l : list (Z * nat)) : map snd (map (fun x => (x.1, S x.2)) l) = map S (map snd l).
Proof. rewrite !map_map. reflexivity. Qed.

(** a prefix code is no better than some tree *)
Lemma code_shape n : forall l, (letters l < n)%nat -> l <> [] -> prefix_code l -> Forall (fun w => 0 <= w) (map fst l) -> exists k, map fst k ≡ₚ map fst l /\ shape (map snd k) /\ cost k <= bits l.
Proof.
  induction n as [|n IH]; intros l Hn Ne Hc Hw; [lia|].
  destruct (decide (Forall (fun x : Z * list bool => x.2 <> []) l)) as [F|F].
  - destruct (first_bit l F) as (l0 & l1 & P). pose proof (code_perm _ _ P Hc) as Hc'. apply code_app in Hc' as [Hc0 Hc1]. apply code_consb in Hc0, Hc1.
    pose proof (Permutation_map fst P) as Pf. rewrite map_app, !fst_consb in Pf. rewrite Pf in Hw. apply Forall_app in Hw as [Hw0 Hw1].
    pose proof (letters_perm _ _ P) as Hl. rewrite letters_app, !letters_consb in Hl. rewrite (bits_perm _ _ P), bits_app, !bits_consb.
    pose proof (weight_nonneg _ Hw0). pose proof (weight_nonneg _ Hw1).
    destruct l0 as [|x0 l0].
    + destruct l1 as [|x1 l1]; [cbn in P; apply Permutation_nil_r in P; congruence|]. destruct (IH (x1 :: l1)) as (k & K1 & K2 & K3); [cbn [length] in Hl; lia|discriminate|assumption..|].
      exists k. split; [rewrite Pf; exact K1|]. split; [exact K2|]. change (bits []) with 0. cbn [map] in *. change (weight []) with 0. lia.
    + destruct l1 as [|x1 l1].
      * destruct (IH (x0 :: l0)) as (k & K1 & K2 & K3); [cbn [length] in Hl; lia|discriminate|assumption..|].
        exists k. split; [rewrite Pf, app_nil_r; exact K1|]. split; [exact K2|]. change (bits []) with 0. cbn [map] in *. change (weight []) with 0. lia.
      * destruct (IH (x0 :: l0)) as (k0 & K1 & K2 & K3); [cbn [length] in Hl; lia|discriminate|assumption..|].
        destruct (IH (x1 :: l1)) as (k1 & J1 & J2 & J3); [cbn [length] in Hl; lia|discriminate|assumption..|].
        exists (map (fun x => (x.1, S x.2)) k0 ++ map (fun x => (x.1, S x.2)) k1). split; [|split].
        -- rewrite map_app, !fst_deeper, Pf, K1, J1. reflexivity.
        -- rewrite map_app, !snd_deeper. apply shape_join; assumption.
        -- rewrite cost_app, !cost_deeper, (weight_perm _ _ K1), (weight_perm _ _ J1). lia.
  - apply not_Forall_Exists in F; [|intros x; solve_decision]. apply Exists_exists in F as ([w c] & Hx & Hc0). cbn in Hc0. apply dec_stable in Hc0. subst c.
    apply elem_of_Permutation in Hx as [k Hk]. pose proof (code_perm _ _ Hk Hc) as Hc'. inversion Hc' as [|? ? F O]; subst.
    destruct k as [|y k]; [|inversion F as [|? ? [A _] _]; subst; exfalso; apply A, prefix_nil].
    exists [(w, 0%nat)]. rewrite (bits_perm _ _ Hk), (Permutation_map fst Hk). split; [reflexivity|]. split; [constructor|]. rewrite cost_cons, bits_cons. cbn. lia.
Qed.
(** a tree is a prefix code *)
Lemma shape_words ds : shape ds -> exists cs : list (list bool), map length cs = ds /\ ForallOrdPairs (fun c d => ~ c `prefix_of` d /\ ~ d `prefix_of` c) cs.
Proof.
  induction 1 as [|d ds S (cs & L & O)|ds es P S (cs & L & O)].
  - exists [[]]. split; [reflexivity|]. constructor; constructor.
  - destruct cs as [|c cs]; [discriminate|]. cbn in L. injection L as Lc L. inversion O as [|? ? F O']; subst. exists ((c ++ [false]) :: (c ++ [true]) :: cs). split.
    + cbn. rewrite !app_length. cbn. f_equal; [lia|]. f_equal. lia.
    + assert (G : forall b, Forall (fun d => ~ (c ++ [b]) `prefix_of` d /\ ~ d `prefix_of` (c ++ [b])) cs).
      { intros b. rewrite Forall_forall in *. intros x Hx. destruct (F x Hx) as [F1 F2]. split; intros Hp.
        - apply F1. etrans; [|exact Hp]. apply prefix_app_r. reflexivity.
        - destruct Hp as [r Hr]. destruct r as [|r0 r] using rev_ind; [rewrite app_nil_r in Hr; apply F1; rewrite <- Hr; apply prefix_app_r; reflexivity|].
          rewrite app_assoc in Hr. apply app_inj_tail in Hr as [Hr _]. apply F2. exists r. exact Hr. }
      constructor; [constructor; [|apply G]|constructor; [apply G|exact O']].
      split; intros [r Hr]; rewrite <- app_assoc in Hr; apply app_inv_head in Hr; discriminate.
  - subst ds. assert (exists cs', cs ≡ₚ cs' /\ map length cs' = es) as (cs' & Pc & L').
    { symmetry in P. apply Permutation_map_inv in P as (cs' & -> & Pc). exists cs'. split; [exact Pc|reflexivity]. }
    exists cs'. split; [exact L'|]. clear P S L' es. revert O. induction Pc as [|x l k P IH|x y l|l k m P IH Q IH']; intros H; auto.
    + inversion H as [|? ? F O]; subst. constructor; [rewrite <- P; exact F|auto].
    + inversion H as [|? ? F O]; subst. inversion O as [|? ? F' O']; subst. inversion F as [|? ? A F'']; subst. constructor; [constructor; [tauto|assumption]|]. constructor; assumption.
Qed.
Lemma shape_code l : shape (map snd l) -> exists k, prefix_code k /\ map fst k = map fst l /\ bits k = cost l.
Proof.
  intros S. destruct (shape_words _ S) as (cs & L & O). clear S.
  enough (exists k, prefix_code k /\ map fst k = map fst l /\ bits k = cost l /\ map snd k = cs) as (k & ? & ? & ? & _) by eauto.
  revert l L. induction O as [|c cs F O IH]; intros [|[w d] l] L; try discriminate.
  - exists []. split; [constructor|auto].
  - cbn in L. injection L as Lc L. destruct (IH l L) as (k & K1 & K2 & K3 & K4). exists ((w, c) :: k). split_and!.
    + constructor; [|exact K1]. rewrite <- K4 in F. apply Forall_forall. intros x Hx. apply (proj1 (Forall_forall _ _) F x.2). apply elem_of_list_In, in_map, elem_of_list_In, Hx.
    + cbn. rewrite K2. reflexivity.
    + rewrite bits_cons, cost_cons, K3. cbn. rewrite Lc. reflexivity.
    + cbn. rewrite K4. reflexivity.
Qed.

(** ** The program *)
Lemma huff_shortest ws c : Forall (fun w => 0 <= w) ws -> huff ws c -> shortest ws c.
Proof.
  intros Hw H. assert (Ne : ws <> []).
  { clear Hw. induction H as [|a b ws ws' c P|ws ws' c P H IH]; [discriminate| |]; intros ->; [apply Permutation_nil_l in P; discriminate|]. apply Permutation_nil_r in P. congruence. }
  split.
  - destruct (huff_upper ws c H) as (l & Pl & Sl & Cl). destruct (shape_code l Sl) as (k & K1 & K2 & K3). rewrite <- K2 in Pl.
    symmetry in Pl. apply Permutation_map_inv in Pl as (k' & -> & Pk). exists k'. split_and!; [apply (code_perm k); [exact Pk|exact K1]|reflexivity|]. rewrite <- (bits_perm _ _ Pk), K3. exact Cl.
  - intros l Hc <-. destruct (code_shape (S (letters l)) l) as (k & K1 & K2 & K3); [lia|intros ->; apply Ne; reflexivity|assumption..|].
    etrans; [|exact K3]. exact (huff_lower _ _ H k K1 K2).
Qed.
Section Run.
  Context (B : binheap (reverse Z)) (content : bh B -> list (reverse Z)) (C : binheap_contract (rev_le Z.le) B content).
  Local Notation bag := (bag B content).
  Lemma huff_run fuel : forall total h, (length (bag h) < fuel)%nat -> (1 <= length (bag h))%nat -> Forall (fun w => 0 <= w) (bag h) -> 0 <= total <= 2 ^ 64 - 1 ->
    exists c, huff (bag h) c /\ 0 <= c /\ rloop fuel (huff_step B) (total, h) = if total + c <=? 2 ^ 64 - 1 then Ok (total + c) else Panic.
  Proof.
    induction fuel as [|fuel IH]; intros total h Hf Hl Hw Ht; [lia|]. cbn [rloop huff_step].
    destruct (bag_pop Z.le B content C h) as [[E1 _]|(a & h1 & E & P1 & L1)]; [rewrite E1 in Hl; cbn in Hl; lia|]. rewrite E.
    destruct (bag_pop Z.le B content C h1) as [[E1 E2]|(b & h2 & E' & P2 & L2)].
    - destruct (mh_pop B h1) as [o h2]. cbn in E2. subst o. cbn. exists 0. rewrite E1 in P1. split; [apply (huff_perm [a]); [symmetry; exact P1|constructor]|]. split; [lia|].
      rewrite Z.add_0_r. destruct (Z.leb_spec total (2 ^ 64 - 1)); [reflexivity|lia].
    - rewrite E'. assert (P : bag h ≡ₚ a :: b :: bag h2) by (rewrite P1, P2; reflexivity). rewrite P in Hw. inversion Hw as [|? ? Ha Hw']; subst. inversion Hw' as [|? ? Hb Hw'']; subst.
      pose proof (bag_push Z.le B content C h2 (a + b)) as Pp.
      destruct (decide (total + (a + b) <= 2 ^ 64 - 1)) as [Hs|Hs].
      + unfold iadd. rewrite chk_ok by (rewrite u64_range; lia). cbn [mbind res_bind]. rewrite chk_ok by (rewrite u64_range; lia). cbn [mbind res_bind].
        destruct (IH (total + (a + b)) (mh_push B h2 (a + b))) as (c & Hc & Hc0 & Er).
        { rewrite Pp. rewrite P in Hf. cbn in *. lia. }
        { rewrite Pp. cbn. lia. }
        { rewrite Pp. constructor; [lia|assumption]. }
        { lia. }
        exists (a + b + c). split.
        * apply (huff_merge a b (bag h2)); [exact P|intros y Hy; apply L1; rewrite P; right; exact Hy|intros y Hy; apply L2; rewrite P2; right; exact Hy|]. apply (huff_perm (bag (mh_push B h2 (a + b)))); [exact Pp|exact Hc].
        * split; [lia|]. rewrite Er, !Z.add_assoc. reflexivity.
      + assert (exists c, huff (bag (mh_push B h2 (a + b))) c /\ 0 <= c) as (c & Hc & Hc0).
        { destruct (IH 0 (mh_push B h2 (a + b))) as (c & Hc & Hc0 & _); [rewrite Pp; rewrite P in Hf; cbn in *; lia|rewrite Pp; cbn; lia|rewrite Pp; constructor; [lia|assumption]|lia|]. eauto. }
        exists (a + b + c). split.
        * apply (huff_merge a b (bag h2)); [exact P|intros y Hy; apply L1; rewrite P; right; exact Hy|intros y Hy; apply L2; rewrite P2; right; exact Hy|]. apply (huff_perm (bag (mh_push B h2 (a + b)))); [exact Pp|exact Hc].
        * split; [lia|]. destruct (Z.leb_spec (total + (a + b + c)) (2 ^ 64 - 1)) as [Hx|Hx]; [lia|]. unfold iadd. destruct (chk_cases u64 (a + b)) as [[_ ->]|[_ ->]]; [|reflexivity]. cbn [mbind res_bind].
          rewrite chk_panic; [reflexivity|]. rewrite u64_range. lia.
  Qed.
  Lemma huffman_ok ws : ws <> [] -> Forall (fun w => 0 <= w) ws -> exists c, shortest ws c /\ huffman B ws = if c <=? 2 ^ 64 - 1 then Ok c else Panic.
  Proof.
    intros Ne Hw. pose proof (bag_pushes Z.le B content C ws (mh_new B)) as P. rewrite (bag_new Z.le B content C) in P. cbn [app] in P.
    destruct (huff_run (S (length ws)) 0 (fold_left (mh_push B) ws (mh_new B))) as (c & Hc & _ & E).
    - rewrite P. lia.
    - rewrite P. destruct ws; [congruence|cbn; lia].
    - rewrite P. exact Hw.
    - lia.
    - exists c. split; [|exact E]. apply huff_shortest; [exact Hw|]. apply (huff_perm (bag (fold_left (mh_push B) ws (mh_new B)))); assumption.
  Qed.
  Lemma huffman_nil : huffman B [] = Ok 0.
  Proof.
    unfold huffman. cbn [fold_left length rloop huff_step]. destruct (bag_pop Z.le B content C (mh_new B)) as [[_ E]|(x & h' & _ & P & _)]; [destruct (mh_pop B (mh_new B)) as [o h]; cbn in E; subst o; reflexivity|].
    rewrite (bag_new Z.le B content C) in P. apply Permutation_nil_l in P. discriminate.
  Qed.
End Run.
Close Scope Z_scope.
