From stdpp Require Import relations.
From Verif Require Import Prelude HeapModel HeapSpec HeapProps LinkSpec LinkProof HeapUseProof PrimTreeModel PrimTreeSpec.

(** ** Connectivity *)
Lemma conn_sub M L u v : (forall p, p ∈ M -> conn L p.1 p.2) -> conn M u v -> conn L u v.
Proof. intros H. induction 1 as [x|x y z H1 _ IH]; [apply rtc_refl|]. eapply conn_trans; [|exact IH]. destruct H1 as [H1|H1]; apply H in H1; [exact H1|apply conn_sym; exact H1]. Qed.
Lemma conn_one L a b : (a, b) ∈ L -> conn L a b.
Proof. intros H. apply rtc_once. auto. Qed.
Lemma conn_side (S : nat -> Prop) M u v : (forall p, p ∈ M -> (S p.1 <-> S p.2)) -> conn M u v -> (S u <-> S v).
Proof. intros H. induction 1 as [x|x y z H1 _ IH]; [reflexivity|]. rewrite <- IH. destruct H1 as [H1|H1]; apply H in H1; cbn in H1; tauto. Qed.
Lemma exchange (S : nat -> Prop) (Sd : forall v, S v \/ ~ S v) a b : S a -> ~ S b -> forall (rest : list (nat * nat * Z)) N, (forall p, p ∈ N -> (S p.1 <-> S p.2)) ->
  conn (N ++ map fst rest) a b -> exists f rest', rest ≡ₚ f :: rest' /\ (S f.1.1 /\ ~ S f.1.2 \/ ~ S f.1.1 /\ S f.1.2) /\ conn ((N ++ map fst rest') ++ [(a, b)]) f.1.1 f.1.2.
Proof.
  intros Ha Hb. induction rest as [|[[x y] w] rest IH]; intros N HN C.
  - rewrite app_nil_r in C. pose proof (conn_side S N a b HN C). tauto.
  - assert (D : (S x <-> S y) \/ (S x /\ ~ S y \/ ~ S x /\ S y)) by (destruct (Sd x), (Sd y); tauto). cbn [map] in C. destruct D as [D|D].
    + destruct (IH (N ++ [(x, y)])) as (f & rest' & P & Hf & C').
      * intros p Hp. apply elem_of_app in Hp as [Hp|Hp]; [auto|]. apply elem_of_list_singleton in Hp as ->. exact D.
      * rewrite <- app_assoc. exact C.
      * exists f, ((x, y, w) :: rest'). split; [rewrite P; apply Permutation_swap|]. split; [exact Hf|]. revert C'. apply conn_mono. intros p. cbn [map fst]. rewrite !elem_of_app, !elem_of_cons, !elem_of_nil. tauto.
    + assert (C1 : conn ((N ++ map fst rest) ++ [(x, y)]) a b) by (revert C; apply conn_mono; intros p; rewrite !elem_of_app, !elem_of_cons, !elem_of_nil; cbn [fst]; tauto).
      apply conn_snoc in C1 as [C1|C1].
      * destruct (IH N HN C1) as (f & rest' & P & Hf & C'). exists f, ((x, y, w) :: rest'). split; [rewrite P; apply Permutation_swap|]. split; [exact Hf|]. revert C'. apply conn_mono. intros p. cbn [map]. rewrite !elem_of_app, !elem_of_cons, !elem_of_nil. tauto.
      * exists (x, y, w), rest. split; [reflexivity|]. split; [exact D|]. cbn [fst snd]. set (L := (N ++ map fst rest) ++ [(a, b)]).
        assert (Lm : forall u v, conn (N ++ map fst rest) u v -> conn L u v) by (intros u v; apply conn_mono; intros p Hp; apply elem_of_app; auto).
        assert (Le : conn L a b) by (apply conn_one; apply elem_of_app; right; left).
        destruct C1 as [[H1 H2]|[H1 H2]]; apply Lm in H1, H2.
        -- apply (conn_trans _ _ a); [apply conn_sym; exact H1|]. apply (conn_trans _ _ b); [exact Le|apply conn_sym; exact H2].
        -- apply (conn_trans _ _ b); [exact H2|]. apply (conn_trans _ _ a); [apply conn_sym; exact Le|exact H1].
Qed.
Lemma weight_perm l l' : l ≡ₚ l' -> weight l = weight l'.
Proof. unfold weight. induction 1; cbn; try lia. Qed.
Lemma weight_app l l' : weight (l ++ l') = (weight l + weight l')%Z.
Proof. unfold weight. induction l as [|x l IH]; cbn; [reflexivity|]. cbn in IH. lia. Qed.

(** ** Picked edges *)
Lemma pick_in es F e : e ∈ pick es F <-> exists i, i ∈ F /\ es !! i = Some e.
Proof. apply elem_of_list_omap. Qed.
Lemma pick_app es F F' : pick es (F ++ F') = pick es F ++ pick es F'.
Proof. apply omap_app. Qed.
Lemma pick_perm es F F' : F ≡ₚ F' -> pick es F ≡ₚ pick es F'.
Proof. unfold pick. induction 1 as [|x l l' _ IH|x y l|l1 l2 l3 _ IH1 _ IH2]; cbn; [reflexivity| | |etrans; eauto]; [destruct (es !! x); [apply Permutation_skip|]; exact IH|]. destruct (es !! x), (es !! y); try reflexivity. apply Permutation_swap. Qed.
Lemma pick_all es : pick es (seq 0 (length es)) = es.
Proof.
  induction es as [|x es IH] using rev_ind; [reflexivity|]. rewrite app_length. cbn [length]. rewrite Nat.add_1_r, seq_S, pick_app. cbn [plus]. f_equal.
  - etrans; [|exact IH]. unfold pick. apply list_omap_ext. apply Forall2_same_length_lookup_2; [reflexivity|]. intros i a b Ha Hb. assert (a = b) as <- by congruence. apply lookup_seq in Ha as [-> Hi]. cbn. rewrite lookup_app_l by lia. reflexivity.
  - unfold pick. cbn. rewrite list_lookup_middle by reflexivity. reflexivity.
Qed.
Lemma pick_sub es F : NoDup F -> (forall i, i ∈ F -> i < length es) -> pick es F ⊆+ es.
Proof.
  intros N H. assert (F ⊆+ seq 0 (length es)) as S by (apply NoDup_submseteq; [exact N|]; intros i Hi; apply elem_of_seq; split; [lia|]; apply H; exact Hi).
  apply submseteq_Permutation in S as [k P]. apply (pick_perm es) in P. rewrite pick_all, pick_app in P. transitivity (pick es F ++ pick es k); [apply submseteq_inserts_r; reflexivity|apply Permutation_submseteq; symmetry; exact P].
Qed.
Lemma pick_length es F : (forall i, i ∈ F -> i < length es) -> length (pick es F) = length F.
Proof.
  induction F as [|i F IH]; intros H; [reflexivity|]. unfold pick. cbn. destruct (lookup_lt_is_Some_2 es i) as [e ->]; [apply H; left|]. cbn. f_equal. apply IH. intros j Hj. apply H. right. exact Hj.
Qed.

(** ** The adjacency lists *)
Definition half (es : list (nat * nat * Z)) (v x j : nat) : Prop := exists e, es !! j = Some e /\ (e.1 = (v, x) \/ e.1 = (x, v)).
Lemma row_push_ok g a x : a < length g -> exists g', row_push g a x = Ok g' /\ length g' = length g /\ forall v row', g' !! v = Some row' -> exists row, g !! v = Some row /\ forall y, y ∈ row' <-> y ∈ row \/ v = a /\ y = x.
Proof.
  intros Ha. destruct (lookup_lt_is_Some_2 g a Ha) as [row Hr]. unfold row_push. rewrite (vget_ok _ _ _ Hr). cbn [mbind res_bind]. rewrite vset_ok by exact Ha. eexists. split; [reflexivity|]. split; [apply insert_length|].
  intros v row' Hv. destruct (decide (v = a)) as [->|Hne].
  - rewrite list_lookup_insert in Hv by exact Ha. injection Hv as <-. exists row. split; [exact Hr|]. intros y. rewrite elem_of_app, elem_of_list_singleton. tauto.
  - rewrite list_lookup_insert_ne in Hv by auto. exists row'. split; [exact Hv|]. intros y. tauto.
Qed.
Lemma adjacency_ok n es : Forall (fun p : nat * nat => p.1 < n /\ p.2 < n) (map fst es) ->
  exists g, adjacency n es = Ok g /\ length g = n /\ forall v row, g !! v = Some row -> forall x j, (x, j) ∈ row <-> half es v x j.
Proof.
  intros Hr. destruct (rfor_range_inv (fun i g => length g = n /\ forall v row, g !! v = Some row -> forall x j, (x, j) ∈ row <-> j < i /\ half es v x j) 0 (length es)
    (fun i g => e ← vget es i; g ← row_push g e.1.1 (e.1.2, i); row_push g e.1.2 (e.1.1, i)) (replicate n [])) as (g & E & L & H).
  - lia.
  - split; [apply replicate_length|]. intros v row Hv x j. apply lookup_replicate in Hv as [-> _]. split; [intros H; inversion H|lia].
  - intros i g [_ Hi] [L H]. destruct (lookup_lt_is_Some_2 es i Hi) as [[[a b] w] He]. rewrite (vget_ok _ _ _ He). cbn [mbind res_bind fst snd]. rewrite Forall_forall in Hr. destruct (Hr (a, b)) as [Ha Hb]; [apply elem_of_list_fmap; exists (a, b, w); split; [reflexivity|]; eapply elem_of_list_lookup_2; eauto|]. cbn [fst snd] in *.
    destruct (row_push_ok g a (b, i)) as (g1 & E1 & L1 & H1); [lia|]. rewrite E1. cbn [mbind res_bind]. destruct (row_push_ok g1 b (a, i)) as (g2 & E2 & L2 & H2); [lia|]. exists g2. split; [exact E2|]. split; [lia|].
    intros v row2 Hv x j. destruct (H2 v row2 Hv) as (row1 & Hv1 & I2). destruct (H1 v row1 Hv1) as (row & Hv0 & I1). rewrite I2, I1, (H v row Hv0). unfold half. split.
    + intros [[[Hj He']|[-> [= -> ->]]]|[-> [= -> ->]]]; [split; [lia|exact He']| |]; (split; [lia|]; exists (a, b, w); auto).
    + intros [Hj (e & He' & Hor)]. destruct (decide (j = i)) as [->|Hne]; [|left; left; split; [lia|eauto]]. assert (e = (a, b, w)) as -> by congruence. cbn [fst] in Hor. destruct Hor as [[= -> ->]|[= -> ->]]; auto.
  - exists g. split; [exact E|]. split; [exact L|]. intros v row Hv x j. rewrite (H v row Hv). split; [tauto|]. intros Hh. split; [|exact Hh]. destruct Hh as (e & He & _). eapply lookup_lt_Some; eauto.
Qed.

(** ** What is still to be pushed *)
Fixpoint todo (vis : list bool) (g : list (list (nat * nat))) : nat :=
  match vis, g with b :: vis, r :: g => (if b : bool then 0 else length r) + todo vis g | _, _ => 0 end.
Lemma todo_set vis : forall g v row, vis !! v = Some false -> g !! v = Some row -> todo (<[v:=true]> vis) g + length row = todo vis g.
Proof.
  induction vis as [|b vis IH]; intros [|r g] [|v] row Hv Hg; try discriminate.
  - cbn in *. injection Hv as ->. injection Hg as ->. lia.
  - change (todo (b :: <[v:=true]> vis) (r :: g) + length row = todo (b :: vis) (r :: g)). cbn [todo]. specialize (IH g v row Hv Hg). lia.
Qed.
Lemma todo_all g : todo (replicate (length g) false) g = length (concat g).
Proof. induction g as [|r g IH]; cbn; [reflexivity|]. rewrite app_length, IH. reflexivity. Qed.

Section Prim.
  Context (le3 : Z * nat * nat -> Z * nat * nat -> Prop) (le3_le : forall a b, le3 a b -> (a.1.1 <= b.1.1)%Z).
  Context (B : binheap (reverse (Z * nat * nat))) (content : bh B -> list (reverse (Z * nat * nat))) (C : binheap_contract (rev_le le3) B content).
  Context (n : nat) (es : list (nat * nat * Z)) (root : nat) (Hes : Forall (fun p : nat * nat => p.1 < n /\ p.2 < n) (map fst es)) (Hroot : root < n).
  Context (g : list (list (nat * nat))) (Lg : length g = n) (Hg : forall v row, g !! v = Some row -> forall x j, (x, j) ∈ row <-> half es v x j).
  Local Notation bag := (bag B content).

  Lemma push_row_ok row : (forall x j, (x, j) ∈ row -> exists e, es !! j = Some e) -> forall h, exists h', push_row B es row h = Ok h' /\ length (bag h') = length row + length (bag h) /\
    forall c x j, (c, x, j) ∈ bag h' <-> (c, x, j) ∈ bag h \/ (x, j) ∈ row /\ exists e, es !! j = Some e /\ c = e.2.
  Proof.
    induction row as [|[x j] row IH]; intros Hr h; unfold push_row; cbn [rfor].
    - eexists. split; [reflexivity|]. split; [reflexivity|]. intros c x j. split; [auto|]. intros [H|[H _]]; [exact H|inversion H].
    - destruct (Hr x j) as [e He]; [left|]. cbn [fst snd]. rewrite (vget_ok _ _ _ He). cbn [mbind res_bind]. pose proof (bag_push le3 B content C h (e.2, x, j)) as P.
      destruct (IH ltac:(intros y k Hy; apply (Hr y k); right; exact Hy) (mh_push B h (e.2, x, j))) as (h' & E & L & I). exists h'. split; [exact E|]. split; [rewrite L, P; cbn; lia|].
      intros c y k. rewrite I, P, !elem_of_cons. split.
      + intros [[[= -> -> ->]|H]|[H K]]; [right; split; [auto|eauto]|auto|auto].
      + intros [H|[[[= -> ->]|H] (e' & He' & ->)]]; [auto| |right; eauto]. left. left. congruence.
  Qed.
  Lemma half_edge v x j : half es v x j -> exists e, es !! j = Some e.
  Proof. intros (e & He & _). eauto. Qed.
  Lemma half_lt v x j : half es v x j -> v < n /\ x < n.
  Proof. intros (e & He & Hor). rewrite Forall_forall in Hes. destruct (Hes e.1) as [H1 H2]; [apply elem_of_list_fmap; exists e; split; [reflexivity|]; eapply elem_of_list_lookup_2; eauto|]. destruct Hor as [E|E]; rewrite E in *; cbn in *; auto. Qed.

  Record inv (vis : list bool) (h : bh B) (F : list nat) : Prop := {
    i_len : length vis = n;
    i_root : vis !! root = Some true;
    i_nodup : NoDup F;
    i_in : forall i, i ∈ F -> exists e, es !! i = Some e /\ vis !! e.1.1 = Some true /\ vis !! e.1.2 = Some true;
    i_conn : forall v, vis !! v = Some true -> conn (map fst (pick es F)) root v;
    i_count : exists l, NoDup l /\ (forall v, v ∈ l <-> vis !! v = Some true) /\ length l = S (length F);
    i_bag : forall c x j, (c, x, j) ∈ bag h -> exists v, vis !! v = Some true /\ half es v x j /\ exists e, es !! j = Some e /\ c = e.2;
    i_all : forall v x j e, vis !! v = Some true -> vis !! x <> Some true -> half es v x j -> es !! j = Some e -> (e.2, x, j) ∈ bag h;
    i_min : forall T, spans es root T -> exists rest, spans es root (pick es F ++ rest) /\ length (pick es F ++ rest) = length T /\ (weight (pick es F ++ rest) <= weight T)%Z }.

  Lemma visit vis h F c x j h' : inv vis h F -> bag h ≡ₚ (c, x, j) :: bag h' -> (forall y, y ∈ bag h -> le3 (c, x, j) y) -> vis !! x = Some false ->
    forall row h2, g !! x = Some row -> (forall c x j, (c, x, j) ∈ bag h2 <-> (c, x, j) ∈ bag h' \/ (x, j) ∈ row /\ exists e, es !! j = Some e /\ c = e.2) -> inv (<[x:=true]> vis) h2 (F ++ [j]).
  Proof.
    intros I Pb Le Hx row h2 Hrow Hb2. destruct (i_bag _ _ _ I c x j) as (v & Hv & Hh & e & He & Hc); [rewrite Pb; left|]. pose proof (half_lt v x j Hh) as [Hvn Hxn].
    assert (Hxl : x < length vis) by (rewrite (i_len _ _ _ I); exact Hxn).
    assert (Sx : <[x:=true]> vis !! x = Some true) by (apply list_lookup_insert; exact Hxl).
    assert (Sm : forall u, vis !! u = Some true -> <[x:=true]> vis !! u = Some true) by (intros u Hu; rewrite list_lookup_insert_ne; [exact Hu|]; intros ->; congruence).
    assert (Si : forall u, <[x:=true]> vis !! u = Some true -> u = x \/ vis !! u = Some true) by (intros u Hu; destruct (decide (u = x)) as [->|Hne]; [auto|]; rewrite list_lookup_insert_ne in Hu by auto; auto).
    assert (Hvx : v <> x) by (intros ->; congruence).
    assert (Pj : pick es (F ++ [j]) = pick es F ++ [e]) by (rewrite pick_app; unfold pick at 2; cbn; rewrite He; reflexivity).
    assert (Ee : e.1 = (v, x) \/ e.1 = (x, v)) by (destruct Hh as (e' & He' & Hor); assert (e' = e) as <- by congruence; exact Hor).
    assert (Ev : forall L, e.1 ∈ L -> conn L v x) by (intros L HL; destruct Ee as [E|E]; rewrite E in HL; [apply conn_one; exact HL|apply conn_sym, conn_one; exact HL]).
    assert (FF : forall p, p ∈ map fst (pick es F) -> vis !! p.1 = Some true /\ vis !! p.2 = Some true).
    { intros p Hp. apply elem_of_list_fmap in Hp as (f & -> & Hf). apply pick_in in Hf as (i & Hi & Hf). destruct (i_in _ _ _ I i Hi) as (f' & Hf' & H1 & H2). assert (f' = f) as -> by congruence. auto. }
    split.
    - rewrite insert_length. apply (i_len _ _ _ I).
    - apply Sm, (i_root _ _ _ I).
    - apply NoDup_app. split; [apply (i_nodup _ _ _ I)|]. split; [|apply NoDup_singleton]. intros i Hi Hj. apply elem_of_list_singleton in Hj as ->. destruct (i_in _ _ _ I j Hi) as (e' & He' & H1 & H2). assert (e' = e) as -> by congruence. destruct Ee as [E|E]; rewrite E in *; cbn in *; congruence.
    - intros i Hi. apply elem_of_app in Hi as [Hi|Hi]; [destruct (i_in _ _ _ I i Hi) as (e' & He' & H1 & H2); eauto 6|]. apply elem_of_list_singleton in Hi as ->. exists e. split; [exact He|]. destruct Ee as [E|E]; rewrite E; cbn; auto.
    - assert (Cm : forall u, vis !! u = Some true -> conn (map fst (pick es (F ++ [j]))) root u) by (intros u Hu; generalize (i_conn _ _ _ I u Hu); apply conn_mono; intros p Hp; rewrite Pj, map_app; apply elem_of_app; auto).
      intros u Hu. apply Si in Hu as [->|Hu]; [|auto]. apply (conn_trans _ _ v); [auto|]. apply Ev. rewrite Pj, map_app. apply elem_of_app. right. left.
    - destruct (i_count _ _ _ I) as (l & Nl & Il & Ll). exists (x :: l). split; [constructor; [|exact Nl]; intros K; apply Il in K; congruence|]. split; [|rewrite app_length; cbn; lia]. intros u. rewrite elem_of_cons, Il. split; [intros [->|K]; auto|apply Si].
    - intros c0 x0 j0 H0. apply Hb2 in H0 as [H0|[H0 K]].
      + destruct (i_bag _ _ _ I c0 x0 j0) as (v0 & Hv0 & Hh0 & K); [rewrite Pb; right; exact H0|]. eauto 6.
      + exists x. split; [exact Sx|]. split; [|exact K]. apply (Hg x row Hrow). exact H0.
    - intros v0 x0 j0 e0 Hv0 Hx0 Hh0 He0. apply Hb2. assert (x0 <> x) as Hne by (intros ->; congruence). assert (vis !! x0 <> Some true) as Hx0' by (intros K; apply Hx0, Sm; exact K). apply Si in Hv0 as [->|Hv0].
      + right. split; [apply (Hg x row Hrow); exact Hh0|eauto].
      + left. pose proof (i_all _ _ _ I v0 x0 j0 e0 Hv0 Hx0' Hh0 He0) as K. rewrite Pb in K. apply elem_of_cons in K as [[= _ -> _]|K]; [congruence|exact K].
    - intros T HT. destruct (i_min _ _ _ I T HT) as (rest & [S1 S2] & Ln & Wt).
      assert (Cvx : conn (map fst (pick es F) ++ map fst rest) v x).
      { apply (conn_trans _ _ root); [apply conn_sym; generalize (i_conn _ _ _ I v Hv); apply conn_mono; intros p Hp; apply elem_of_app; auto|]. rewrite <- map_app. apply S2.
        apply (conn_trans _ _ v); [generalize (i_conn _ _ _ I v Hv); apply conn_mono; intros p Hp; apply elem_of_list_fmap in Hp as (f & -> & Hf); apply pick_in in Hf as (i & _ & Hf); apply elem_of_list_fmap; exists f; split; [reflexivity|]; eapply elem_of_list_lookup_2; eauto|].
        apply Ev. apply elem_of_list_fmap. exists e. split; [reflexivity|]. eapply elem_of_list_lookup_2; eauto. }
      destruct (exchange (fun u => vis !! u = Some true) ltac:(intros u; destruct (decide (vis !! u = Some true)); auto) v x Hv ltac:(congruence) rest (map fst (pick es F)) ltac:(intros p Hp; destruct (FF p Hp); tauto) Cvx) as (f & rest' & Pr & Hf & Cf).
      assert (Hfes : f ∈ es) by (apply S1; apply elem_of_app; right; rewrite Pr; left). apply elem_of_list_lookup in Hfes as [k Hk].
      assert (Wf : (e.2 <= f.2)%Z).
      { assert (exists v0 x0, vis !! v0 = Some true /\ vis !! x0 <> Some true /\ half es v0 x0 k) as (v0 & x0 & Hv0 & Hx0 & Hh0).
        { destruct Hf as [[H1 H2]|[H1 H2]]; [exists f.1.1, f.1.2|exists f.1.2, f.1.1]; (split; [assumption|]; split; [assumption|]; exists f; split; [exact Hk|]; rewrite <- surjective_pairing; auto). }
        pose proof (le3_le _ _ (Le _ (i_all _ _ _ I v0 x0 k f Hv0 Hx0 Hh0 Hk))) as W. cbn in W. lia. }
      exists rest'. rewrite Pj, <- app_assoc. cbn [app]. split; [split|split].
      + intros y Hy. apply elem_of_app in Hy as [Hy|Hy]; [apply S1; apply elem_of_app; auto|]. apply elem_of_cons in Hy as [->|Hy]; [eapply elem_of_list_lookup_2; eauto|]. apply S1. apply elem_of_app. right. rewrite Pr. right. exact Hy.
      + intros u Hu. apply S2 in Hu. revert Hu. apply conn_sub. set (L := map fst (pick es F ++ e :: rest')).
        assert (L1 : forall p, p ∈ map fst (pick es F) \/ p ∈ map fst rest' -> p ∈ L) by (intros p Hp; unfold L; rewrite map_app, elem_of_app; cbn [map]; rewrite elem_of_cons; tauto).
        assert (L2 : conn L v x) by (apply Ev; unfold L; rewrite map_app, elem_of_app; right; left).
        intros p Hp. rewrite map_app in Hp. apply elem_of_app in Hp as [Hp|Hp]; [destruct p; apply conn_one; auto|]. change (map fst rest) with (fst <$> rest) in Hp. rewrite Pr in Hp. cbn in Hp. apply elem_of_cons in Hp as [->|Hp]; [|destruct p; apply conn_one; auto].
        revert Cf. apply conn_sub. intros q Hq. rewrite !elem_of_app, elem_of_list_singleton in Hq. destruct Hq as [Hq| ->]; [destruct q; apply conn_one; auto|exact L2].
      + rewrite <- Ln, !app_length, Pr. cbn. reflexivity.
      + rewrite weight_app in *. rewrite (weight_perm _ _ Pr) in Wt. unfold weight in *. cbn in *. lia.
  Qed.

  Lemma loop_ok vis h : inv vis h [] -> length (bag h) + todo vis g < S (length (concat g)) ->
    exists F, rloop (S (length (concat g))) (prim_step B es g) (vis, h, []) = Ok F /\ exists vis' h', inv vis' h' F /\ bag h' = [].
  Proof.
    intros I0 M0. apply (rloop_inv (fun '(vis, h, F) => inv vis h F) (fun F => exists vis' h', inv vis' h' F /\ bag h' = []) (fun '(vis, h, F) => length (bag h) + todo vis g)); [|exact I0|exact M0].
    clear I0 M0 vis h. intros [[vis h] F] I. unfold prim_step. destruct (bag_pop le3 B content C h) as [[E1 E2]|([[c x] j] & h' & E & Pb & Le)].
    - destruct (mh_pop B h) as [o h1]. cbn in E2. subst o. eexists. split; [reflexivity|]. cbn. eauto.
    - rewrite E. destruct (i_bag _ _ _ I c x j) as (v & Hv & Hh & e & He & Hc); [rewrite Pb; left|]. destruct (half_lt v x j Hh) as [_ Hxn]. destruct (lookup_lt_is_Some_2 vis x) as [b Hb]; [rewrite (i_len _ _ _ I); exact Hxn|].
      rewrite (vget_ok _ _ _ Hb). cbn [mbind res_bind]. destruct b.
      + eexists. split; [reflexivity|]. cbn. split; [|rewrite Pb; cbn; lia]. destruct I as [J1 J2 J3 J4 J5 J6 J7 J8 J9]. split; try assumption.
        * intros c0 x0 j0 H0. apply J7. rewrite Pb. right. exact H0.
        * intros v0 x0 j0 e0 Hv0 Hx0 Hh0 He0. pose proof (J8 v0 x0 j0 e0 Hv0 Hx0 Hh0 He0) as K. rewrite Pb in K. apply elem_of_cons in K as [[= _ -> _]|K]; [contradiction|exact K].
      + rewrite vset_ok by (rewrite (i_len _ _ _ I); exact Hxn). cbn [mbind res_bind]. destruct (lookup_lt_is_Some_2 g x) as [row Hrow]; [rewrite Lg; exact Hxn|]. rewrite (vget_ok _ _ _ Hrow). cbn [mbind res_bind].
        destruct (push_row_ok row) with (h := h') as (h2 & E2 & L2 & I2); [intros y k Hy; apply (Hg x row Hrow) in Hy; eapply half_edge; eauto|]. rewrite E2. cbn [mbind res_bind]. eexists. split; [reflexivity|]. cbn. split.
        * eapply visit; eauto.
        * pose proof (todo_set vis g x row Hb Hrow). rewrite L2, Pb. cbn. lia.
  Qed.

  Lemma start_ok : exists vis row h, vset (replicate n false) root true = Ok vis /\ vget g root = Ok row /\ push_row B es row (mh_new B) = Ok h /\ inv vis h [] /\ length (bag h) + todo vis g < S (length (concat g)).
  Proof.
    destruct (lookup_lt_is_Some_2 g root) as [row Hrow]; [lia|]. destruct (push_row_ok row) with (h := mh_new B) as (h & E & L & I); [intros y k Hy; apply (Hg root row Hrow) in Hy; eapply half_edge; eauto|].
    exists (<[root:=true]> (replicate n false)), row, h. split; [apply vset_ok; rewrite replicate_length; exact Hroot|]. split; [apply vget_ok; exact Hrow|]. split; [exact E|]. rewrite (bag_new le3 B content C) in L. split.
    - assert (Sr : forall v, <[root:=true]> (replicate n false) !! v = Some true <-> v = root).
      { intros v. destruct (decide (v = root)) as [->|Hne]; [rewrite list_lookup_insert by (rewrite replicate_length; exact Hroot); tauto|]. rewrite list_lookup_insert_ne by auto. split; [|congruence]. intros K. apply lookup_replicate in K as [K _]. discriminate. }
      split.
      + rewrite insert_length. apply replicate_length.
      + apply Sr. reflexivity.
      + constructor.
      + intros i Hi. inversion Hi.
      + intros v Hv. apply Sr in Hv as ->. apply rtc_refl.
      + exists [root]. split; [apply NoDup_singleton|]. split; [|reflexivity]. intros v. rewrite Sr, elem_of_list_singleton. reflexivity.
      + intros c x j K. apply I in K as [K|[K W]]; [rewrite (bag_new le3 B content C) in K; inversion K|]. exists root. split; [apply Sr; reflexivity|]. split; [apply (Hg root row Hrow); exact K|exact W].
      + intros v x j e Hv _ Hh He. apply Sr in Hv as ->. apply I. right. split; [apply (Hg root row Hrow); exact Hh|eauto].
      + intros T HT. exists T. split; [exact HT|]. split; [reflexivity|apply Z.le_refl].
    - pose proof (todo_set (replicate n false) g root row) as K. rewrite <- Lg in K at 3. rewrite todo_all in K. cbn in L. rewrite L. rewrite lookup_replicate_2 in K by exact Hroot. specialize (K eq_refl Hrow). lia.
  Qed.
End Prim.
