(** Every call of an HLD whose operation may panic, caught panics included, is allowed by the vertices' candidates. *)
From Verif Require Import Prelude UtilModel UtilProof ArraySpec PartialOps LazySpec LazyModel LazyTop LazyChkModel LazyChkProof TreeSpec TreeProof HldSpec HldModel HldTree HldProof HldOps
  Unwind LazyUnwindModel TreeUnwindSpec LazyUnwindSpec LazyUnwindGhost LazyUnwindProof LazyUnwindTop LazyUnwindOps HldUnwindModel HldUnwindSpec.

Lemma some_prod_app {S} (e : S) (op : S -> S -> S) (L : monoid_laws e op) c1 c2 x y :
  some_prod e op c1 x -> some_prod e op c2 y -> some_prod e op (c1 ++ c2) (op x y).
Proof.
  intros (ys & H1 & ->) (zs & H2 & ->). exists (ys ++ zs). split; [apply Forall2_app; assumption|]. symmetry. apply (mprod_app _ _ L).
Qed.
Lemma lz_cells_length {S F} (e : S) op (mapping : F -> S -> S) cells o out cells' :
  lz_cells_step e op mapping cells o out cells' -> length cells' = length cells.
Proof.
  assert (forall (f : list S -> list S) l r cs, length (map_range f l r cs) = length cs) as Hm by (intros; unfold map_range; apply imap_length).
  destruct o; cbn; repeat match goal with |- context [match ?b with _ => _ end] => destruct b end; intros H; try contradiction;
    repeat match goal with H : _ /\ _ |- _ => destruct H | H : exists _, _ |- _ => destruct H end; subst; rewrite ?insert_length, ?alter_length, ?Hm; reflexivity.
Qed.

Section ops.
  Context {S F : Type} (e : S) (op : S -> S -> S) (idm : F) (mapping : F -> S -> S) (comp : F -> F -> F).
  Context (L : monoid_laws e op) (ML : map_laws op idm mapping comp) (opc : S -> S -> res S) (O : or_panics op opc).
  Context (g : list (list nat)) (root : nat) (par dep : nat -> nat) (Ht : rtree g root par dep).
  Context (h : hl) (hv : nat -> option nat) (pos posr : nat -> nat) (Hd : decomp g root par dep h hv pos posr).
  Context (ord : list nat) (Hord : forall k v, ord !! k = Some v <-> v < length g /\ pos v = k).
  Local Notation mapc := (fun f x => Ok (mapping f x)).
  Local Notation compc := (fun f g => Ok (comp f g)).
  Notation n := (length g).
  Notation anc := (anc par).
  Notation head := (headf par dep hv).
  Notation light := (light par dep hv).
  Notation seg := (seg par dep).
  Notation pathp := (pathp g).
  Notation CInv := (CInv e op idm mapping).
  Notation piece := (piece g par dep hv).
  Notation pieces := (pieces par dep).
  Notation falling := (falling dep).
  Notation wof := (wof (@nil S) g pos).
  Notation am := (all_mapped mapping).
  Notation mm := (maybe_mapped mapping).
  Implicit Types (t : lazytree S F) (a : list (list S)).

  (** The pieces the two loops will handle, in this order. *)
  Inductive plan : nat -> nat -> list (nat * nat) -> Prop :=
  | plan_last u v x y : u < n -> v < n -> climb h u v = Ok None -> by_pos h u v = Ok (x, y) -> ((x, y) = (u, v) \/ (x, y) = (v, u)) ->
      piece (x, y) -> plan u v [(x, y)]
  | plan_climb u v u1 v1 ps : u < n -> v < n -> climb h u v = Ok (Some (u1, v1)) -> ((u1, v1) = (u, v) \/ (u1, v1) = (v, u)) -> u1 < n -> v1 < n ->
      piece (head u1, u1) -> ~ anc (head u1) v1 -> dep (head v1) <= dep (head u1) -> dep (par (head u1)) < dep (head u1) ->
      plan (par (head u1)) v1 ps -> plan u v ((head u1, u1) :: ps).

  Lemma plan_exists u v : u < n -> v < n -> exists ps, plan u v ps /\ length ps <= light u + light v + 1.
  Proof.
    remember (light u + light v) as m eqn:Hm. revert u v Hm. induction (lt_wf m) as [m _ IH]. intros u v -> Hu Hv.
    destruct (climb_ok g root par dep Ht h hv pos posr Hd u v Hu Hv) as [[E Ec]|(u1 & v1 & Ec & Hsw & Hu1 & Hv1 & Hh & Hp & Hna & Hlt & Hd1 & Hd2)].
    - destruct (by_pos_ok g root par dep Ht h hv pos posr Hd u v Hu Hv E) as (x & y & Eb & Hsw & Hx & Hy & E2 & A). exists [(x, y)]. split; [|cbn; lia].
      apply plan_last; auto. repeat split; auto.
    - destruct (IH (light (par (head u1)) + light v1)) with (u := par (head u1)) (v := v1) as (ps & Hps & Hl); auto.
      { destruct Hsw as [Hsw|Hsw]; injection Hsw as -> ->; lia. }
      exists ((head u1, u1) :: ps). split; [|cbn; destruct Hsw as [Hsw|Hsw]; injection Hsw as -> ->; lia]. eapply plan_climb; eauto.
      split; [exact Hh|]. split; [exact Hu1|]. split; [eapply head_anc; eauto|eapply head_head; eauto].
  Qed.
  Lemma plan_path u v ps : plan u v ps -> pathp u v (pieces ps).
  Proof.
    induction 1 as [u v x y Hu Hv Ec Eb Hsw Hp|u v u1 v1 ps Hu Hv Ec Hsw Hu1 Hv1 Hp Hna Hd1 Hd2 Hps IH].
    - unfold pieces. cbn. rewrite app_nil_r. destruct Hp as (Hx & Hy & A & E). eapply pathp_swap; [exact Ht|exact Hsw|]. eapply pathp_chain; eauto.
    - unfold pieces in *. cbn. destruct Hp as (Hx & Hy & A & E). eapply pathp_swap; [exact Ht|exact Hsw|]. eapply pathp_climb; eauto.
  Qed.
  Lemma plan_pieces u v ps : plan u v ps -> Forall piece ps.
  Proof. induction 1; constructor; auto. Qed.
  Lemma plan_bound u v ps : plan u v ps -> forall D, dep (head u) <= D -> dep (head v) <= D -> dep u <= D \/ dep v <= D -> Forall (fun p => dep (fst p) <= D) ps.
  Proof.
    induction 1 as [u v x y Hu Hv Ec Eb Hsw Hp|u v u1 v1 ps Hu Hv Ec Hsw Hu1 Hv1 Hp Hna Hd1 Hd2 Hps IH]; intros D H1 H2 H3.
    - constructor; [|constructor]. cbn. destruct Hp as (Hx & Hy & A & E). cbn in *. pose proof (anc_dep _ _ _ _ Ht x y Hy A). destruct Hsw as [Hsw|Hsw]; injection Hsw as -> ->; lia.
    - assert (dep (head u1) <= D /\ dep (head v1) <= D) as [B1 B2] by (destruct Hsw as [Hsw|Hsw]; injection Hsw as -> ->; lia).
      constructor; [exact B1|]. assert (par (head u1) < n) as Hp1 by (inversion Hps; assumption).
      pose proof (head_dep _ _ _ _ Ht _ _ _ _ Hd _ Hp1). apply IH; lia.
  Qed.
  Lemma plan_falling u v ps : plan u v ps -> falling ps.
  Proof.
    induction 1 as [u v x y Hu Hv Ec Eb Hsw Hp|u v u1 v1 ps Hu Hv Ec Hsw Hu1 Hv1 Hp Hna Hd1 Hd2 Hps IH]; intros i j p q Hij Hi Hj.
    - destruct j as [|j]; [lia|]. discriminate.
    - destruct j as [|j]; [lia|]. destruct i as [|i].
      + injection Hi as <-. cbn in Hj |- *. assert (par (head u1) < n) as Hp1 by (inversion Hps; assumption).
        pose proof (head_dep _ _ _ _ Ht _ _ _ _ Hd _ Hp1).
        assert (Forall (fun p => dep (fst p) <= dep (head u1)) ps) as HF by (apply (plan_bound _ _ _ Hps); lia).
        rewrite Forall_forall in HF. apply HF. eapply elem_of_list_lookup_2; eauto.
      + apply (IH i j); [lia|exact Hi|exact Hj].
  Qed.
  Lemma plan_lt u v ps : plan u v ps -> u < n /\ v < n.
  Proof. inversion 1; auto. Qed.
  Lemma plan_by_pieces u v ps : plan u v ps -> length ps <= 2 * Nat.log2 n + 1 -> exists l, is_path g u v l /\ by_pieces g root ord (pieces ps) l.
  Proof.
    intros Hp Hl. destruct (plan_path u v ps Hp) as (l & H1 & H2). exists l. split; [exact H1|]. split; [symmetry; exact H2|].
    eapply (pieces_by_pieces g root par dep Ht h hv pos posr Hd ord Hord); [apply (plan_pieces _ _ _ Hp)|apply (plan_falling _ _ _ Hp)|exact Hl].
  Qed.

  (** *** The two updates of a piece *)
  Definition on_piece (G : list S -> list S) (p : nat * nat) (a : list (list S)) : list (list S) := map_range G (pos p.1) (pos p.2 + 1) a.
  Definition on_pieces (f : F) (ps : list (nat * nat)) (a : list (list S)) : list (list S) := foldl (fun a p => on_piece (am f) p a) a ps.
  Lemma on_piece_length G p a : length (on_piece G p a) = length a.
  Proof. unfold on_piece, map_range. apply imap_length. Qed.
  Lemma on_pieces_length f ps a : length (on_pieces f ps a) = length a.
  Proof. unfold on_pieces. revert a. induction ps as [|p ps IH]; intros a; [reflexivity|]. cbn. rewrite IH. apply on_piece_length. Qed.
  Lemma on_piece_mapped (M : F -> list S -> list S) f p a : piece p -> length a = n -> mapped M (fun x => x ∈ seg p.1 p.2) f (wof a) (wof (on_piece (M f) p a)).
  Proof. intros (Hx & Hy & A & E) Ha. apply (seg_mapped [] M g root par dep Ht h hv pos posr Hd p.1 p.2 Hx Hy A E a f Ha). Qed.
  Lemma on_pieces_mapped f ps a : Forall piece ps -> NoDup (pieces ps) -> length a = n -> mapped am (fun x => x ∈ pieces ps) f (wof a) (wof (on_pieces f ps a)).
  Proof.
    intros Hps Hnd Ha. induction ps as [|p ps IH] using rev_ind.
    - apply mapped_refl. intros x Hx. unfold pieces in Hx. cbn in Hx. inversion Hx.
    - rewrite pieces_snoc in Hnd |- *. apply Forall_app in Hps as [Hps Hp]. inversion_clear Hp as [|? ? Hp1 _]. apply NoDup_app in Hnd as (Hn1 & Hdis & _).
      unfold on_pieces. rewrite foldl_snoc. fold (on_pieces f ps a).
      eapply mapped_ext; [|eapply mapped_app; [exact (IH Hps Hn1)|apply on_piece_mapped; [exact Hp1|rewrite on_pieces_length; exact Ha]|exact Hdis|]].
      + intros x. cbv beta. rewrite elem_of_app. reflexivity.
      + intros x. cbv beta. destruct (decide (x ∈ pieces ps)); auto.
  Qed.

  Local Notation apply_range := (ltu_apply_range opc idm mapc compc).
  Local Notation prod := (ltu_prod e opc idm mapc compc).
  Lemma range_ends t a l r f : CInv t a -> l <= r <= length a ->
    ends (fun _ t' => CInv t' (map_range (am f) l r a)) (fun t' => CInv t' (map_range (mm f) l r a)) (apply_range l r f t).
  Proof.
    intros C Hlr. destruct (step_cells e op idm mapping comp L ML opc O t a (LzApplyRange l r f) C) as (t' & out & a' & E & Hs & C').
    cbn [ltu_step] in E. unfold ubind in E. destruct (apply_range l r f t) as [[t1 [[]|]]| |]; cbn [mbind res_bind] in E; try discriminate.
    - injection E as <- <-. cbn in Hs. destruct Hs as [_ ->]. exact C'.
    - injection E as <- <-. cbn in Hs. destruct (Nat.leb_spec l r); [|lia]. destruct (Nat.leb_spec r (length a)); [|lia]. cbn in Hs. subst a'. exact C'.
  Qed.
  Lemma prod_ends t a l r : CInv t a -> l <= r <= length a ->
    ends (fun z t' => CInv t' a /\ some_prod e op (slice a l r) z) (fun t' => CInv t' a) (prod l r t).
  Proof.
    intros C Hlr. destruct (step_cells e op idm mapping comp L ML opc O t a (LzProd l r) C) as (t' & out & a' & E & Hs & C').
    cbn [ltu_step] in E. unfold ubind in E. destruct (prod l r t) as [[t1 [z|]]| |]; cbn [mbind res_bind] in E; try discriminate.
    - injection E as <- <-. cbn in Hs. destruct Hs as (-> & _ & Hs). split; assumption.
    - injection E as <- <-. cbn in Hs. destruct Hs as (-> & _). exact C'.
  Qed.
  Lemma ends_val {X A} (r : res A) (v : A) (P : A -> X -> Prop) U s : r = Ok v -> P v s -> ends P U (uread (fun _ => r) s).
  Proof. intros E H. apply ends_read. left. exists v. auto. Qed.

  Section paths.
    Context (f : F).
    Definition done_path (ps : list (nat * nat)) a (t' : lazytree S F) : Prop := CInv t' (on_pieces f ps a).
    Definition cut_path (ps : list (nat * nat)) a (t' : lazytree S F) : Prop :=
      exists ps1 p ps2, ps = ps1 ++ p :: ps2 /\ CInv t' (on_piece (mm f) p (on_pieces f ps1 a)).
    Definition last_apply (b : nat * nat) : uw (lazytree S F) unit :=
      uv <~ uread (fun _ => by_pos h b.1 b.2) ;~
      (l <~ uread (fun _ => vget (h_pos h) uv.1) ;~ (r <~ uread (fun _ => vget (h_pos h) uv.2) ;~ apply_range l (r + 1) f)).
    Lemma apply_plan u v ps : plan u v ps -> forall fuel t a, CInv t a -> length a = n -> length ps <= fuel ->
      ends (fun b t' => ends (fun _ => done_path ps a) (cut_path ps a) (last_apply b t')) (cut_path ps a)
        (uloop fuel (apply_pathu_step opc idm mapc compc h f) (u, v) t).
    Proof.
      induction 1 as [u v x y Hu Hv Ec Eb Hsw Hp|u v u1 v1 ps Hu Hv Ec Hsw Hu1 Hv1 Hp Hna Hd1 Hd2 Hps IH]; intros fuel t a C Ha Hf.
      - destruct fuel as [|fuel]; [cbn in Hf; lia|]. cbn [uloop]. apply ends_bind. unfold apply_pathu_step. apply ends_bind. apply (ends_val _ _ _ _ _ Ec). cbn.
        unfold last_apply. apply ends_bind. apply (ends_val _ _ _ _ _ Eb). cbn [fst snd]. destruct Hp as (Hx & Hy & A & E). cbn [fst snd] in *.
        apply ends_bind. apply (ends_val _ _ _ _ _ (vget_ok _ _ _ (d_pos _ _ _ _ _ _ _ _ Hd _ Hx))). apply ends_bind. apply (ends_val _ _ _ _ _ (vget_ok _ _ _ (d_pos _ _ _ _ _ _ _ _ Hd _ Hy))).
        eapply ends_mono; [apply range_ends; [exact C|rewrite Ha; eapply seg_bounds; eauto]|intros ? t' H; exact H|].
        intros t' H. exists [], (x, y), []. split; [reflexivity|exact H].
      - destruct fuel as [|fuel]; [cbn in Hf; lia|]. cbn [uloop]. apply ends_bind. unfold apply_pathu_step at 1. apply ends_bind. apply (ends_val _ _ _ _ _ Ec). cbv beta iota.
        pose proof Hp as (Hh & _ & A & E). cbn [fst snd] in *.
        apply ends_bind. apply (ends_val _ _ _ _ _ (vget_ok _ _ _ (d_head _ _ _ _ _ _ _ _ Hd u1 Hu1))).
        apply ends_bind. apply (ends_val _ _ _ _ _ (vget_ok _ _ _ (d_pos _ _ _ _ _ _ _ _ Hd _ Hh))). apply ends_bind. apply (ends_val _ _ _ _ _ (vget_ok _ _ _ (d_pos _ _ _ _ _ _ _ _ Hd _ Hu1))).
        apply ends_bind. eapply ends_mono; [apply range_ends; [exact C|rewrite Ha; eapply seg_bounds; eauto]| |].
        + intros [] t1 C1. apply ends_bind. apply (ends_val _ _ _ _ _ (vget_ok _ _ _ (d_parent _ _ _ _ _ _ _ _ Hd _ Hh))). cbv beta. cbn [uret ends].
          change (map_range (am f) (pos (head u1)) (pos u1 + 1) a) with (on_piece (am f) (head u1, u1) a) in C1.
          eapply ends_mono; [apply (IH fuel t1 _ C1); [rewrite on_piece_length; exact Ha|cbn in Hf; lia]| |].
          * intros b t2 H. eapply ends_mono; [exact H|intros ? t3 H3; exact H3|]. intros t3 (ps1 & p & ps2 & -> & H3). exists ((head u1, u1) :: ps1), p, ps2. split; [reflexivity|exact H3].
          * intros t3 (ps1 & p & ps2 & -> & H3). exists ((head u1, u1) :: ps1), p, ps2. split; [reflexivity|exact H3].
        + intros t1 C1. exists [], (head u1, u1), ps. split; [reflexivity|exact C1].
    Qed.
  End paths.

  Definition last_prod (b : nat * nat * S) : uw (lazytree S F) S :=
    uv <~ uread (fun _ => by_pos h b.1.1 b.1.2) ;~
    (l <~ uread (fun _ => vget (h_pos h) uv.1) ;~ (r <~ uread (fun _ => vget (h_pos h) uv.2) ;~ (z <~ prod l (r + 1) ;~ uread (fun _ => opc b.2 z)))).
  Definition prod_path (ps : list (nat * nat)) a acc (x : S) (t' : lazytree S F) : Prop := CInv t' a /\ exists z, some_prod e op (vals [] (wof a) (pieces ps)) z /\ x = op acc z.
  Lemma prod_plan u v ps : plan u v ps -> forall fuel t a acc, CInv t a -> length a = n -> length ps <= fuel ->
    ends (fun b t' => ends (prod_path ps a acc) (fun t' => CInv t' a) (last_prod b t')) (fun t' => CInv t' a)
      (uloop fuel (path_produ_step e opc idm mapc compc h) (u, v, acc) t).
  Proof.
    induction 1 as [u v x y Hu Hv Ec Eb Hsw Hp|u v u1 v1 ps Hu Hv Ec Hsw Hu1 Hv1 Hp Hna Hd1 Hd2 Hps IH]; intros fuel t a acc C Ha Hf.
    - destruct fuel as [|fuel]; [cbn in Hf; lia|]. cbn [uloop]. apply ends_bind. unfold path_produ_step. apply ends_bind. apply (ends_val _ _ _ _ _ Ec). cbn [uret ends].
      unfold last_prod. cbn [fst snd]. apply ends_bind. apply (ends_val _ _ _ _ _ Eb). cbn [fst snd]. destruct Hp as (Hx & Hy & A & E). cbn [fst snd] in *.
      apply ends_bind. apply (ends_val _ _ _ _ _ (vget_ok _ _ _ (d_pos _ _ _ _ _ _ _ _ Hd _ Hx))). apply ends_bind. apply (ends_val _ _ _ _ _ (vget_ok _ _ _ (d_pos _ _ _ _ _ _ _ _ Hd _ Hy))).
      apply ends_bind. eapply ends_mono; [apply prod_ends; [exact C|rewrite Ha; eapply seg_bounds; eauto]| |intros t' H; exact H].
      intros z t' [C' Hz]. cbn [snd]. apply ends_read. destruct (O acc z) as [Ez|Ez]; rewrite Ez; [left|right; split; [reflexivity|exact C']].
      eexists. split; [reflexivity|]. split; [exact C'|]. exists z. split; [|reflexivity]. change (pieces [(x, y)]) with (seg x y ++ []). rewrite app_nil_r.
      rewrite (vals_seg [] g root par dep Ht h hv pos posr Hd a x y) by auto. exact Hz.
    - destruct fuel as [|fuel]; [cbn in Hf; lia|]. cbn [uloop]. apply ends_bind. unfold path_produ_step at 1. apply ends_bind. apply (ends_val _ _ _ _ _ Ec). cbv beta iota.
      pose proof Hp as (Hh & _ & A & E). cbn [fst snd] in *.
      apply ends_bind. apply (ends_val _ _ _ _ _ (vget_ok _ _ _ (d_head _ _ _ _ _ _ _ _ Hd u1 Hu1))).
      apply ends_bind. apply (ends_val _ _ _ _ _ (vget_ok _ _ _ (d_pos _ _ _ _ _ _ _ _ Hd _ Hh))). apply ends_bind. apply (ends_val _ _ _ _ _ (vget_ok _ _ _ (d_pos _ _ _ _ _ _ _ _ Hd _ Hu1))).
      apply ends_bind. eapply ends_mono; [apply prod_ends; [exact C|rewrite Ha; eapply seg_bounds; eauto]| |intros t' H; exact H].
      intros z t1 [C1 Hz]. apply ends_bind. apply ends_read. destruct (O acc z) as [Ez|Ez]; rewrite Ez; [left|right; split; [reflexivity|exact C1]].
      eexists. split; [reflexivity|]. apply ends_bind. apply (ends_val _ _ _ _ _ (vget_ok _ _ _ (d_parent _ _ _ _ _ _ _ _ Hd _ Hh))). cbv beta. cbn [uret ends].
      eapply ends_mono; [apply (IH fuel t1 a (op acc z) C1 Ha); cbn in Hf; lia| |intros t' H; exact H].
      intros b t2 H. eapply ends_mono; [exact H| |intros t' H'; exact H']. intros y t3 [C3 (z2 & Hz2 & ->)]. split; [exact C3|]. exists (op z z2). split; [|apply eq_sym, (ml_assoc _ _ L)].
      change (pieces ((head u1, u1) :: ps)) with (seg (head u1) u1 ++ pieces ps). rewrite vals_app. apply some_prod_app; [exact L| |exact Hz2]. rewrite (vals_seg [] g root par dep Ht h hv pos posr Hd a (head u1) u1) by auto. exact Hz.
  Qed.

  (** *** One call *)
  Definition HC (x : hld S F) (cells : list (list S)) : Prop := hd_tree x = h /\ exists a, CInv (hd_data x) a /\ length a = n /\ cells = wof a.
  Local Notation hstep := (hld_cells_step e op mapping g root ord).
  Local Notation allowed x cells o r := (exists x' out cells', r = Ok (x', out) /\ hstep cells o out cells' /\ HC x' cells') (only parsing).
  Definition left_as (cells : list (list S)) (o : hld_op S F) (out : option (hld_out S)) (t' : lazytree S F) : Prop :=
    exists a', CInv t' a' /\ length a' = n /\ hstep cells o out (wof a').
  Lemma step_of_ends {A} (m : hl -> uw (lazytree S F) A) (k : A -> hld_out S) t cells o :
    ends (fun y => left_as cells o (Some (k y))) (left_as cells o None) (m h t) ->
    allowed (Hld t h) cells o ((y <~ on_data m ;~ uret (k y)) (Hld t h)).
  Proof.
    intros H. apply ends_inv in H as (t' & out & E & H). unfold ubind, on_data. cbn [hd_tree hd_data]. rewrite E. cbn [mbind res_bind].
    destruct out as [y|]; destruct H as (a' & C' & Ha' & Hs); (eexists _, _, (wof a'); split; [reflexivity|]; split; [exact Hs|]; split; [reflexivity|]; exists a'; auto).
  Qed.
  Lemma plan_fuel u v : u < n -> v < n -> exists ps, plan u v ps /\ length ps <= 2 * Nat.log2 n + 1 /\ length ps <= 2 * length (h_pos h) + 1.
  Proof.
    intros Hu Hv. destruct (plan_exists u v Hu Hv) as (ps & Hp & Hl). exists ps. split; [exact Hp|].
    pose proof (fuel_enough g root par dep Ht h hv pos posr Hd u v Hu Hv). rewrite (hw_pos _ _ (d_wf _ _ _ _ _ _ _ _ Hd)).
    pose proof (Nat.log2_lt_lin n). pose proof (t_root _ _ _ _ Ht). lia.
  Qed.
  Lemma wof_alter (G : list S -> list S) u a : length a = n -> u < n -> wof (alter G (pos u) a) = alter G u (wof a).
  Proof.
    intros Ha Hu. assert (length (alter G (pos u) a) = n) as Ha' by (rewrite alter_length; exact Ha). apply list_eq. intros z. destruct (decide (z < n)) as [Hz|Hz].
    - rewrite (wof_lookup [] g root par dep h hv pos posr Hd) by auto. destruct (decide (u = z)) as [<-|Hne].
      + rewrite !list_lookup_alter, (wof_lookup [] g root par dep h hv pos posr Hd) by auto. reflexivity.
      + rewrite !list_lookup_alter_ne; [rewrite (wof_lookup [] g root par dep h hv pos posr Hd) by auto; reflexivity|auto|]. intros E. apply Hne. eapply d_inj; eauto.
    - rewrite !lookup_ge_None_2; [reflexivity|rewrite alter_length, wof_length; lia|rewrite wof_length; lia].
  Qed.
  Lemma wof_insert c u a : length a = n -> u < n -> wof (<[pos u := c]> a) = <[u := c]> (wof a).
  Proof.
    intros Ha Hu. assert (forall (l : list (list S)) i, i < length l -> <[i := c]> l = alter (fun _ => c) i l) as Hi.
    { intros l i Hi. apply lookup_lt_is_Some_2 in Hi as [y Hy]. rewrite (alter_some _ _ _ _ Hy). reflexivity. }
    rewrite Hi by (rewrite Ha; apply (d_lt _ _ _ _ _ _ _ _ Hd u Hu)). rewrite wof_alter by auto. symmetry. apply Hi. rewrite wof_length. exact Hu.
  Qed.

  Lemma apply_path_cells t a u v f : CInv t a -> length a = n -> allowed (Hld t h) (wof a) (HApplyPath u v f) (hldu_step e opc idm mapc compc (HApplyPath u v f) (Hld t h)).
  Proof.
    intros C Ha. cbn [hldu_step]. apply step_of_ends. apply ends_bind. destruct (decide (u < n /\ v < n)) as [[Hu Hv]|Hn].
    - destruct (plan_fuel u v Hu Hv) as (ps & Hp & Hl1 & Hl2). destruct (plan_by_pieces u v ps Hp Hl1) as (l & HP & Hby).
      pose proof (plan_pieces _ _ _ Hp) as Hpc. pose proof (pathp_NoDup _ _ _ _ (plan_path _ _ _ Hp)) as Hnd.
      assert (forall t', cut_path f ps a t' -> left_as (wof a) (HApplyPath u v f) None t') as Hcut.
      { intros t' (ps1 & p & ps2 & -> & C'). exists (on_piece (mm f) p (on_pieces f ps1 a)). split; [exact C'|]. split; [rewrite on_piece_length, on_pieces_length; exact Ha|].
        cbn [hld_cells_step]. rewrite (proj2 (Nat.ltb_lt u n) Hu), (proj2 (Nat.ltb_lt v n) Hv). cbn [andb].
        assert (pieces (ps1 ++ p :: ps2) = pieces ps1 ++ seg p.1 p.2 ++ pieces ps2) as Epc by (unfold pieces; rewrite map_app, concat_app; reflexivity).
        rewrite Epc in Hby, Hnd. apply Forall_app in Hpc as [Hpc1 Hpc2]. inversion_clear Hpc2 as [|? ? Hp1 _].
        exists l, (pieces ps1), (seg p.1 p.2), (pieces ps2), (wof (on_pieces f ps1 a)). split; [exact HP|]. split; [exact Hby|]. split; [|split].
        - destruct Hp1 as (Hx & Hy & A & E). eapply (seg_descending g root par dep Ht h hv pos posr Hd ord Hord); auto.
        - apply on_pieces_mapped; [exact Hpc1|apply NoDup_app in Hnd; apply Hnd|exact Ha].
        - apply on_piece_mapped; [exact Hp1|rewrite on_pieces_length; exact Ha]. }
      eapply ends_mono; [apply (apply_plan f u v ps Hp (2 * length (h_pos h) + 1) t a C Ha Hl2)| |exact Hcut].
      intros b t1 H. eapply ends_mono; [exact H| |exact Hcut]. intros [] t2 C2. exists (on_pieces f ps a). split; [exact C2|]. split; [rewrite on_pieces_length; exact Ha|].
      cbn [hld_cells_step]. split; [exact Hu|]. split; [exact Hv|]. exists l. split; [exact HP|]. eapply mapped_ext; [|apply on_pieces_mapped; [exact Hpc|exact Hnd|exact Ha]].
      intros x. cbv beta. destruct Hby as [Hby _]. rewrite Hby. reflexivity.
    - rewrite Nat.add_1_r. cbn [uloop]. apply ends_bind. unfold apply_pathu_step at 1. apply ends_bind. apply ends_read. right.
      split; [apply (climb_panic g root par dep h hv pos posr Hd); lia|]. exists a. split; [exact C|]. split; [exact Ha|]. cbn [hld_cells_step].
      destruct (Nat.ltb_spec u n); destruct (Nat.ltb_spec v n); cbn [andb]; [lia|reflexivity|reflexivity|reflexivity].
  Qed.
  Lemma path_prod_cells t a u v : CInv t a -> length a = n -> allowed (Hld t h) (wof a) (HPathProd u v) (hldu_step e opc idm mapc compc (HPathProd u v) (Hld t h)).
  Proof.
    intros C Ha. cbn [hldu_step]. apply step_of_ends. apply ends_bind.
    assert (forall t', CInv t' a -> left_as (wof a) (HPathProd u v) None t') as Hcut by (intros t' C'; exists a; cbn [hld_cells_step]; auto).
    destruct (decide (u < n /\ v < n)) as [[Hu Hv]|Hn].
    - destruct (plan_fuel u v Hu Hv) as (ps & Hp & Hl1 & Hl2). destruct (plan_by_pieces u v ps Hp Hl1) as (l & HP & Hby).
      eapply ends_mono; [apply (prod_plan u v ps Hp (2 * length (h_pos h) + 1) t a e C Ha Hl2)| |exact Hcut].
      intros b t1 H. eapply ends_mono; [exact H| |exact Hcut]. intros y t2 [C2 (z & Hz & ->)]. exists a. split; [exact C2|]. split; [exact Ha|].
      cbn [hld_cells_step]. split; [reflexivity|]. split; [exact Hu|]. split; [exact Hv|]. exists l, (pieces ps). split; [exact HP|]. split; [exact Hby|]. rewrite (ml_idl _ _ L). exact Hz.
    - rewrite Nat.add_1_r. cbn [uloop]. apply ends_bind. unfold path_produ_step at 1. apply ends_bind. apply ends_read. right.
      split; [apply (climb_panic g root par dep h hv pos posr Hd); lia|]. apply Hcut. exact C.
  Qed.

  Lemma subtree_range u : u < n -> pos u <= posr u <= n.
  Proof.
    intros Hu. pose proof (d_lt _ _ _ _ _ _ _ _ Hd u Hu) as [_ Hr]. pose proof (proj2 (d_nest _ _ _ _ _ _ _ _ Hd u u Hu Hu) (anc_refl par u)). lia.
  Qed.
  Lemma apply_subtree_cells t a u f : CInv t a -> length a = n -> allowed (Hld t h) (wof a) (HApplySubtree u f) (hldu_step e opc idm mapc compc (HApplySubtree u f) (Hld t h)).
  Proof.
    intros C Ha. cbn [hldu_step]. apply step_of_ends. apply ends_bind. destruct (decide (u < n)) as [Hu|Hu].
    - apply (ends_val _ _ _ _ _ (vget_ok _ _ _ (d_pos _ _ _ _ _ _ _ _ Hd _ Hu))). apply ends_bind. apply (ends_val _ _ _ _ _ (vget_ok _ _ _ (d_posr _ _ _ _ _ _ _ _ Hd _ Hu))).
      assert (forall M : F -> list S -> list S, mapped M (ancestor g root u) f (wof a) (wof (map_range (M f) (pos u) (posr u) a)) /\ length (map_range (M f) (pos u) (posr u) a) = n) as HM.
      { intros M. apply (range_mapped [] M g root par dep h hv pos posr Hd a (pos u) (posr u) f (ancestor g root u) Ha).
        intros z Hz. rewrite (ancestor_iff _ _ _ _ Ht u z Hu Hz). symmetry. apply (d_nest _ _ _ _ _ _ _ _ Hd); auto. }
      eapply ends_mono; [apply range_ends; [exact C|rewrite Ha; apply subtree_range; exact Hu]| |].
      + intros [] t' C'. exists (map_range (am f) (pos u) (posr u) a). split; [exact C'|]. destruct (HM am) as [H1 H2]. split; [exact H2|]. cbn [hld_cells_step]. auto.
      + intros t' C'. exists (map_range (mm f) (pos u) (posr u) a). split; [exact C'|]. destruct (HM mm) as [H1 H2]. split; [exact H2|]. cbn [hld_cells_step].
        rewrite (proj2 (Nat.ltb_lt u n) Hu). exact H1.
    - apply ends_read. right. split; [apply (pos_panic g root par dep h hv pos posr Hd); lia|]. exists a. split; [exact C|]. split; [exact Ha|].
      cbn [hld_cells_step]. destruct (Nat.ltb_spec u n); [lia|reflexivity].
  Qed.
  Lemma subtree_prod_cells t a u : CInv t a -> length a = n -> allowed (Hld t h) (wof a) (HSubtreeProd u) (hldu_step e opc idm mapc compc (HSubtreeProd u) (Hld t h)).
  Proof.
    intros C Ha. cbn [hldu_step]. apply step_of_ends. apply ends_bind.
    assert (forall t', CInv t' a -> left_as (wof a) (HSubtreeProd u) None t') as Hcut by (intros t' C'; exists a; cbn [hld_cells_step]; auto).
    destruct (decide (u < n)) as [Hu|Hu].
    - apply (ends_val _ _ _ _ _ (vget_ok _ _ _ (d_pos _ _ _ _ _ _ _ _ Hd _ Hu))). apply ends_bind. apply (ends_val _ _ _ _ _ (vget_ok _ _ _ (d_posr _ _ _ _ _ _ _ _ Hd _ Hu))).
      pose proof (subtree_range u Hu) as Hlr. pose proof (ord_length g pos ord Hord) as Hol.
      eapply ends_mono; [apply prod_ends; [exact C|rewrite Ha; exact Hlr]| |exact Hcut].
      intros y t' [C' Hy]. exists a. split; [exact C'|]. split; [exact Ha|]. cbn [hld_cells_step]. split; [reflexivity|]. split; [exact Hu|].
      exists (slice ord (pos u) (posr u)). split; [unfold slice; etrans; [apply sublist_take|apply sublist_drop]|]. split.
      + intros z. rewrite elem_of_list_lookup. split.
        * intros [i Hi]. pose proof (lookup_lt_Some _ _ _ Hi) as Hil. rewrite slice_length in Hil by lia.
          rewrite slice_lookup in Hi by lia. apply Hord in Hi as [Hz Hp]. split; [exact Hz|]. apply (ancestor_iff _ _ _ _ Ht u z Hu Hz), (d_nest _ _ _ _ _ _ _ _ Hd u z Hu Hz). lia.
        * intros [Hz A]. apply (ancestor_iff _ _ _ _ Ht u z Hu Hz), (d_nest _ _ _ _ _ _ _ _ Hd u z Hu Hz) in A.
          exists (pos z - pos u). rewrite slice_lookup by lia. apply Hord. split; [exact Hz|lia].
      + rewrite (vals_slice [] g root par dep h hv pos posr Hd a (slice ord (pos u) (posr u)) (pos u)); [|intros i z Hi|exact Ha].
        * rewrite slice_length by lia. replace (pos u + (posr u - pos u)) with (posr u) by lia. exact Hy.
        * pose proof (lookup_lt_Some _ _ _ Hi) as Hil. rewrite slice_length in Hil by lia. rewrite slice_lookup in Hi by lia. apply Hord in Hi. exact Hi.
    - apply ends_read. right. split; [apply (pos_panic g root par dep h hv pos posr Hd); lia|]. apply Hcut. exact C.
  Qed.
  Lemma get_cells_hld t a u : CInv t a -> length a = n -> allowed (Hld t h) (wof a) (HGet u) (hldu_step e opc idm mapc compc (HGet u) (Hld t h)).
  Proof.
    intros C Ha. cbn [hldu_step]. apply step_of_ends. apply ends_bind. destruct (decide (u < n)) as [Hu|Hu].
    - apply (ends_val _ _ _ _ _ (vget_ok _ _ _ (d_pos _ _ _ _ _ _ _ _ Hd _ Hu))). pose proof (d_lt _ _ _ _ _ _ _ _ Hd u Hu) as [Hpn _].
      destruct (step_cells e op idm mapping comp L ML opc O t a (LzGet (pos u)) C) as (t' & out & a' & E & Hs & C').
      cbn [ltu_step] in E. unfold ubind in E. destruct (ltu_get _ _ _ _ t) as [[t1 [y|]]| |]; cbn [mbind res_bind] in E; try discriminate; injection E as <- <-; cbn in Hs.
      + destruct Hs as (-> & c & Hc). cbn [ends]. exists a. split; [exact C'|]. split; [exact Ha|]. cbn [hld_cells_step]. split; [reflexivity|]. exists c.
        rewrite (wof_lookup [] g root par dep h hv pos posr Hd) by auto. exact Hc.
      + lia.
    - apply ends_read. right. split; [apply (pos_panic g root par dep h hv pos posr Hd); lia|]. exists a. split; [exact C|]. split; [exact Ha|]. cbn [hld_cells_step]. split; [reflexivity|lia].
  Qed.
  Lemma set_cells_hld t a u x : CInv t a -> length a = n -> allowed (Hld t h) (wof a) (HSet u x) (hldu_step e opc idm mapc compc (HSet u x) (Hld t h)).
  Proof.
    intros C Ha. cbn [hldu_step]. apply step_of_ends. apply ends_bind. destruct (decide (u < n)) as [Hu|Hu].
    - apply (ends_val _ _ _ _ _ (vget_ok _ _ _ (d_pos _ _ _ _ _ _ _ _ Hd _ Hu))).
      destruct (step_cells e op idm mapping comp L ML opc O t a (LzSet (pos u) x) C) as (t' & out & a' & E & Hs & C'). pose proof (lz_cells_length _ _ _ _ _ _ _ Hs) as Hla.
      cbn [ltu_step] in E. unfold ubind in E. destruct (ltu_set _ _ _ _ _ _ t) as [[t1 [[]|]]| |]; cbn [mbind res_bind] in E; try discriminate; injection E as <- <-; cbn in Hs; cbn [ends].
      + destruct Hs as [_ ->]. eexists. split; [exact C'|]. split; [lia|]. cbn [hld_cells_step]. split; [exact Hu|]. apply wof_insert; auto.
      + subst a'. eexists. split; [exact C'|]. split; [lia|]. cbn [hld_cells_step]. apply wof_alter; auto.
    - apply ends_read. right. split; [apply (pos_panic g root par dep h hv pos posr Hd); lia|]. exists a. split; [exact C|]. split; [exact Ha|]. cbn [hld_cells_step].
      symmetry. apply alter_none. rewrite wof_length. lia.
  Qed.
  Lemma data_cells t a o : CInv t a -> length a = n -> allowed (Hld t h) (wof a) (HData o) (hldu_step e opc idm mapc compc (HData o) (Hld t h)).
  Proof.
    intros C Ha. cbn [hldu_step]. apply step_of_ends. destruct (step_cells e op idm mapping comp L ML opc O t a o C) as (t' & out & a' & E & Hs & C').
    pose proof (lz_cells_length _ _ _ _ _ _ _ Hs) as Hla. rewrite E.
    assert (left_as (wof a) (HData o) (option_map HDataOut out) t') as H.
    { exists a'. split; [exact C'|]. split; [lia|]. cbn [hld_cells_step]. split; [rewrite !wof_length; reflexivity|].
      rewrite !(vals_ord [] g root par dep h hv pos posr Hd ord Hord) by lia. destruct out; exact Hs. }
    destruct out; exact H.
  Qed.

  Lemma hld_step_cells o x cells : HC x cells -> allowed x cells o (hldu_step e opc idm mapc compc o x).
  Proof.
    destruct x as [t h']. intros [E (a & C & Ha & ->)]. cbn [hd_tree hd_data] in *. subst h'.
    destruct o; [apply apply_path_cells|apply path_prod_cells|apply apply_subtree_cells|apply subtree_prod_cells|apply get_cells_hld|apply set_cells_hld|apply data_cells]; assumption.
  Qed.
  Lemma hld_run_cells ops : forall x cells, HC x cells ->
    exists x' outs cells', urun (hldu_step e opc idm mapc compc) x ops = Ok (x', outs) /\ cells_run hstep cells ops outs cells' /\ HC x' cells'.
  Proof.
    induction ops as [|o ops IH]; intros x cells H.
    - exists x, [], cells. cbn. auto.
    - destruct (hld_step_cells o x cells H) as (x1 & out & cells1 & E & Hs & H1). destruct (IH x1 cells1 H1) as (x2 & outs & cells2 & E2 & Hr & H2).
      exists x2, (out :: outs), cells2. cbn [urun]. rewrite E. cbn [mbind res_bind]. rewrite E2. cbn [mbind res_bind].
      split; [reflexivity|]. split; [|exact H2]. cbn. eauto.
  Qed.
  Lemma HC_start x w : hinv e op idm mapping g h pos x w -> HC x (map (fun y => [y]) w).
  Proof.
    intros [E (a & I & Ha & ->)]. split; [exact E|]. exists (map (fun y => [y]) a). split; [apply CInv_start; exact I|]. split; [rewrite map_length; exact Ha|].
    unfold HldOps.wof. rewrite map_map. apply map_ext_in. intros v Hv. apply in_seq in Hv. change (map ?k ?l) with (k <$> l). rewrite list_lookup_fmap.
    destruct (lookup_lt_is_Some_2 a (pos v)) as [y ->]; [rewrite Ha; apply (d_lt _ _ _ _ _ _ _ _ Hd); lia|reflexivity].
  Qed.
End ops.
