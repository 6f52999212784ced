From Verif Require Import Prelude UtilModel ArraySpec LazySpec LazyModel LazyTop TreeSpec TreeProof HldSpec HldModel HldTree HldProof HldOps HldPosModel HldPosSpec.

(** Both calls panic, or both return related results. *)
Definition sim {A B} (Q : A -> B -> Prop) (x : res A) (y : res B) : Prop :=
  match x, y with Ok a, Ok b => Q a b | Panic, Panic => True | Diverge, Diverge => True | _, _ => False end.
Lemma sim_bind {A B C D} (Q : A -> B -> Prop) (Q' : C -> D -> Prop) x y (f : A -> res C) (f' : B -> res D) :
  sim Q x y -> (forall a b, Q a b -> sim Q' (f a) (f' b)) -> sim Q' (mbind f x) (mbind f' y).
Proof. destruct x, y; cbn; try tauto. intros H K. apply K, H. Qed.
Lemma sim_same {A C D} (Q' : C -> D -> Prop) (x : res A) (f : A -> res C) (f' : A -> res D) :
  (forall a, x = Ok a -> sim Q' (f a) (f' a)) -> sim Q' (mbind f x) (mbind f' x).
Proof. destruct x; cbn; auto. Qed.
Lemma rloop_sim {A B A' B'} (J : A -> A' -> Prop) (Q : B -> B' -> Prop) (f : A -> res (A + B)) (f' : A' -> res (A' + B')) :
  (forall s s', J s s' -> sim (fun x y => match x, y with inl a, inl b => J a b | inr a, inr b => Q a b | _, _ => False end) (f s) (f' s')) ->
  forall k s s', J s s' -> sim Q (rloop k f s) (rloop k f' s').
Proof.
  intros H. induction k as [|k IH]; intros s s' HJ; cbn [rloop]; [exact I|]. eapply sim_bind; [apply H, HJ|]. intros [a|a] [b|b] Q'; try contradiction; [apply IH, Q'|exact Q'].
Qed.

Section pos.
  Context {S F : Type} (e : S) (op : S -> S -> S) (idm : F) (mapping : F -> S -> S) (comp : F -> F -> F).
  Context (L : monoid_laws e op) (ML : map_laws op idm mapping comp).
  Context (g : list (list nat)) (root : nat) (par dep : nat -> nat) (Ht : rtree g root par dep).
  Context (h : hl) (hv : nat -> option nat) (pos posr : nat -> nat) (Hd : decomp g root par dep h hv pos posr).
  Context (Pl : list nat) (m : nat) (HP : layout g (h_pos h) Pl m).
  Notation n := (length g).
  Notation anc := (anc par).
  Notation head := (headf par dep hv).
  Notation LInv := (LInv e op idm mapping).
  Definition P (v : nat) : nat := default 0 (Pl !! v).
  Let h' := HL (h_parent h) (h_dep h) (h_heavy h) (h_head h) Pl (h_posr h).

  Lemma P_get v : v < n -> Pl !! v = Some (P v).
  Proof. intros Hv. destruct (lookup_lt_is_Some_2 Pl v) as [i Hi]; [rewrite (proj1 HP); exact Hv|]. unfold P. rewrite Hi. reflexivity. Qed.
  Lemma P_lt v : v < n -> P v < m.
  Proof. intros Hv. destruct HP as (_ & _ & H & _). apply (H v), P_get, Hv. Qed.
  Lemma P_inj u v : u < n -> v < n -> P u = P v -> u = v.
  Proof. intros Hu Hv E. destruct HP as (_ & N & _). eapply NoDup_lookup; [exact N|apply P_get, Hu|rewrite E; apply P_get, Hv]. Qed.
  Lemma P_heavy v w : v < n -> hv v = Some w -> P w = Datatypes.S (P v).
  Proof.
    intros Hv E. pose proof (d_heavy _ _ _ _ _ _ _ _ Hd v Hv) as Hh. rewrite E in Hh. assert (Hc : child g root par v w) by apply Hh. assert (Hw : w < n) by apply Hc.
    destruct HP as (_ & _ & _ & H). apply (H v w (P v) (P w) (pos v)); try (apply P_get; assumption).
    - apply (edge_iff _ _ _ _ Ht). auto.
    - apply (d_pos _ _ _ _ _ _ _ _ Hd v Hv).
    - rewrite <- (d_hpos _ _ _ _ _ _ _ _ Hd v w Hv E). apply (d_pos _ _ _ _ _ _ _ _ Hd w Hw).
  Qed.
  Lemma P_head : forall k v, v < n -> dep v = k -> P v + dep (head v) = P (head v) + dep v.
  Proof.
    induction k as [|k IH]; intros v Hv Hk; [apply (dep_0 _ _ _ _ Ht v Hv) in Hk as ->; rewrite (head_root _ _ _ _ Ht); lia|].
    assert (v <> root) as Hr by (intros ->; rewrite (t_root_dep _ _ _ _ Ht) in Hk; lia). assert (child g root par (par v) v) as Hc by (split; [exact Hv|auto]).
    assert (par v < n) as Hp by (apply (par_lt _ _ _ _ Ht); exact Hv). pose proof (child_dep _ _ _ _ Ht _ _ Hc) as Hdv.
    pose proof (head_child _ _ _ _ Ht hv _ _ Hc) as E. destruct (decide (hv (par v) = Some v)) as [Eh|Eh]; rewrite E; [|lia].
    pose proof (IH (par v) Hp ltac:(lia)). rewrite (P_heavy _ _ Hp Eh). lia.
  Qed.
  Lemma P_same x y : x < n -> y < n -> head x = head y -> P x + pos y = P y + pos x.
  Proof.
    intros Hx Hy E. pose proof (P_head _ x Hx eq_refl). pose proof (P_head _ y Hy eq_refl). pose proof (head_pos _ _ _ _ Ht _ _ _ _ Hd x Hx). pose proof (head_pos _ _ _ _ Ht _ _ _ _ Hd y Hy).
    pose proof (head_dep _ _ _ _ Ht _ _ _ _ Hd x Hx). pose proof (head_dep _ _ _ _ Ht _ _ _ _ Hd y Hy). rewrite E in *. lia.
  Qed.

  (** The same values at the vertices; the other places hold what A0 holds. *)
  Definition same (A0 a A : list S) : Prop :=
    length a = n /\ length A = m /\ (forall v, v < n -> a !! pos v = A !! P v) /\ forall i, i ∉ Pl -> A !! i = A0 !! i.
  Definition rel (A0 : list S) (t t' : lazytree S F) : Prop := exists a A, LInv t a /\ LInv t' A /\ same A0 a A.

  Section range.
    Context (x y : nat) (Hx : x < n) (Hy : y < n) (A : anc x y) (E : head x = head y).
    Lemma seg_at i : i < pos y + 1 - pos x -> exists z, z < n /\ pos z = pos x + i /\ P z = P x + i /\ head z = head y.
    Proof.
      intros Hi. destruct (d_onto _ _ _ _ _ _ _ _ Hd (pos x + i)) as (z & Hz & Ez); [pose proof (d_lt _ _ _ _ _ _ _ _ Hd y Hy); lia|].
      destruct (proj1 (seg_pos _ _ _ _ Ht _ _ _ _ Hd x y z Hx Hy Hz A E) ltac:(lia)) as [A1 A2].
      assert (Hh : head z = head y). { apply (head_between _ _ _ _ Ht _ _ _ _ Hd y z Hy); [|exact A2]. rewrite <- E. eapply anc_trans; [apply (head_anc _ _ _ _ Ht _ _ _ _ Hd x Hx)|exact A1]. }
      exists z. split; [exact Hz|]. split; [exact Ez|]. split; [|exact Hh]. pose proof (P_same x z Hx Hz ltac:(congruence)). lia.
    Qed.
    Lemma seg_len : P y + 1 - P x = pos y + 1 - pos x /\ pos x <= pos y + 1 <= n /\ P x <= P y + 1 <= m.
    Proof.
      pose proof (P_same x y Hx Hy E). pose proof (proj2 (seg_pos _ _ _ _ Ht _ _ _ _ Hd x y y Hx Hy Hy A E) (conj A (anc_refl par y))). pose proof (d_lt _ _ _ _ _ _ _ _ Hd y Hy). pose proof (P_lt y Hy). lia.
    Qed.
    Lemma seg_slice A0 a A' : same A0 a A' -> slice a (pos x) (pos y + 1) = slice A' (P x) (P y + 1).
    Proof.
      intros (La & LA & Hs & _). destruct seg_len as (El & B1 & B2). apply list_eq. intros i. destruct (Nat.lt_ge_cases i (pos y + 1 - pos x)) as [Hi|Hi].
      - destruct (seg_at i Hi) as (z & Hz & Ez & Pz & _). rewrite !slice_lookup by lia. rewrite <- Ez, <- Pz. apply Hs, Hz.
      - rewrite !lookup_ge_None_2; [reflexivity|rewrite slice_length; lia..].
    Qed.
    Lemma seg_iff v : v < n -> pos x <= pos v < pos y + 1 <-> P x <= P v < P y + 1.
    Proof.
      intros Hv. destruct seg_len as (El & B1 & B2). split; intros H.
      - destruct (seg_at (pos v - pos x) ltac:(lia)) as (z & Hz & Ez & Pz & _). assert (z = v) as -> by (apply (d_inj _ _ _ _ _ _ _ _ Hd); try assumption; lia). lia.
      - destruct (seg_at (P v - P x) ltac:(lia)) as (z & Hz & Ez & Pz & _). assert (z = v) as -> by (apply P_inj; try assumption; lia). lia.
    Qed.
    Lemma seg_map A0 a A' f : same A0 a A' -> same A0 (map_range (mapping f) (pos x) (pos y + 1) a) (map_range (mapping f) (P x) (P y + 1) A').
    Proof.
      intros (La & LA & Hs & Ho). unfold same, map_range. rewrite !imap_length. split; [exact La|]. split; [exact LA|]. split.
      - intros v Hv. rewrite !list_lookup_imap, (Hs v Hv). destruct (A' !! P v) as [s|]; cbn; [|reflexivity]. f_equal. pose proof (seg_iff v Hv) as Q.
        destruct (Nat.leb_spec (pos x) (pos v)), (Nat.ltb_spec (pos v) (pos y + 1)), (Nat.leb_spec (P x) (P v)), (Nat.ltb_spec (P v) (P y + 1)); cbn; try reflexivity; exfalso; lia.
      - intros i Hi. rewrite list_lookup_imap, <- (Ho i Hi). destruct (A' !! i) as [s|]; cbn; [|reflexivity]. f_equal. destruct (Nat.leb_spec (P x) i) as [H1|]; [|reflexivity]. destruct (Nat.ltb_spec i (P y + 1)) as [H2|]; cbn; [|reflexivity].
        exfalso. apply Hi. destruct seg_len as (El & B1 & B2). destruct (seg_at (i - P x) ltac:(lia)) as (z & Hz & _ & Pz & _). replace i with (P z) by lia. eapply elem_of_list_lookup_2, P_get, Hz.
    Qed.
    Lemma prod_sim A0 t t' : rel A0 t t' -> sim (fun r r' => rel A0 r.1 r'.1 /\ r.2 = r'.2) (lt_prod e op idm mapping comp t (pos x) (pos y + 1)) (lt_prod e op idm mapping comp t' (P x) (P y + 1)).
    Proof.
      intros (a & A' & I & I' & Sm). destruct seg_len as (El & B1 & B2). pose proof Sm as (La & LA & _).
      destruct (prod_ok e op idm mapping comp L ML t a I (pos x) (pos y + 1)) as (t1 & -> & I1); [rewrite (li_n _ _ _ _ _ _ I); lia|].
      destruct (prod_ok e op idm mapping comp L ML t' A' I' (P x) (P y + 1)) as (t2 & -> & I2); [rewrite (li_n _ _ _ _ _ _ I'); lia|].
      cbn. split; [exists a, A'; auto|]. rewrite (seg_slice A0 a A' Sm). reflexivity.
    Qed.
    Lemma apply_sim A0 t t' f : rel A0 t t' -> sim (rel A0) (lt_apply_range op idm mapping comp t (pos x) (pos y + 1) f) (lt_apply_range op idm mapping comp t' (P x) (P y + 1) f).
    Proof.
      intros (a & A' & I & I' & Sm). destruct seg_len as (El & B1 & B2). pose proof Sm as (La & LA & _).
      destruct (apply_range_ok e op idm mapping comp L ML t a I (pos x) (pos y + 1) f) as (t1 & -> & I1); [rewrite (li_n _ _ _ _ _ _ I); lia|].
      destruct (apply_range_ok e op idm mapping comp L ML t' A' I' (P x) (P y + 1) f) as (t2 & -> & I2); [rewrite (li_n _ _ _ _ _ _ I'); lia|].
      cbn. do 2 eexists. split; [exact I1|]. split; [exact I2|]. apply seg_map, Sm.
    Qed.
  End range.

  Lemma by_pos_same u v : u < n -> v < n -> head u = head v -> by_pos h' u v = by_pos h u v.
  Proof.
    intros Hu Hv E. unfold by_pos. cbn [h' h_pos]. rewrite (vget_ok _ _ _ (P_get u Hu)), (vget_ok _ _ _ (P_get v Hv)), (vget_ok _ _ _ (d_pos _ _ _ _ _ _ _ _ Hd u Hu)), (vget_ok _ _ _ (d_pos _ _ _ _ _ _ _ _ Hd v Hv)). cbn [mbind res_bind].
    pose proof (P_same u v Hu Hv E). destruct (Nat.ltb_spec (P v) (P u)), (Nat.ltb_spec (pos v) (pos u)); try reflexivity; lia.
  Qed.
  Lemma climb_lt u v r : climb h u v = Ok r -> u < n /\ v < n.
  Proof.
    intros H. destruct (decide (n <= u \/ n <= v)) as [Hp|Hp]; [|lia]. rewrite (climb_panic g root par dep h hv pos posr Hd u v Hp) in H. discriminate.
  Qed.
  Lemma path_prod_sim A0 t t' u v k : rel A0 t t' ->
    sim (fun x y => hd_tree x.1 = h /\ hd_tree y.1 = h' /\ rel A0 (hd_data x.1) (hd_data y.1) /\ x.2 = y.2) (path_prod_fuel e op idm mapping comp k (Hld t h) u v) (path_prod_fuel e op idm mapping comp k (Hld t' h') u v).
  Proof.
    intros R. unfold path_prod_fuel. cbn [hd_tree hd_data]. eapply sim_bind.
    - apply (rloop_sim (fun s s' => s.1.1.1 = s'.1.1.1 /\ s.1.1.2 = s'.1.1.2 /\ rel A0 s.1.2 s'.1.2 /\ s.2 = s'.2)
        (fun s s' => s.1.1.1 = s'.1.1.1 /\ s.1.1.2 = s'.1.1.2 /\ rel A0 s.1.2 s'.1.2 /\ s.2 = s'.2 /\ s.1.1.1 < n /\ s.1.1.2 < n /\ head s.1.1.1 = head s.1.1.2)); [|cbn; auto].
      intros [[[u1 v1] t1] acc] [[[u2 v2] t2] acc2]. cbn [fst snd]. intros (<- & <- & R1 & <-). unfold path_prod_step. change (climb h' u1 v1) with (climb h u1 v1). apply sim_same. intros c Ec. pose proof (climb_lt u1 v1 c Ec) as [Hu1 Hv1].
      destruct (climb_ok g root par dep Ht h hv pos posr Hd u1 v1 Hu1 Hv1) as [[Eh Ec']|(u3 & v3 & Ec' & Hsw & Hu3 & Hv3 & Hh & Hp & _)]; rewrite Ec in Ec'; injection Ec' as ->.
      + cbn. auto 10.
      + cbn [h' h_head h_parent h_pos]. rewrite (vget_ok _ _ _ (d_head _ _ _ _ _ _ _ _ Hd u3 Hu3)). cbn [mbind res_bind].
        rewrite (vget_ok _ _ _ (P_get _ Hh)), (vget_ok _ _ _ (P_get _ Hu3)), (vget_ok _ _ _ (d_pos _ _ _ _ _ _ _ _ Hd _ Hh)), (vget_ok _ _ _ (d_pos _ _ _ _ _ _ _ _ Hd _ Hu3)). cbn [mbind res_bind].
        eapply sim_bind; [apply prod_sim; [exact Hh|exact Hu3|eapply head_anc; eauto|eapply head_head; eauto|exact R1]|]. intros [t3 z] [t4 z']. cbn [fst snd]. intros [R2 <-].
        rewrite (vget_ok _ _ _ (d_parent _ _ _ _ _ _ _ _ Hd _ Hh)). cbn. auto.
    - intros [[[u1 v1] t1] acc] [[[u2 v2] t2] acc2]. cbn [fst snd]. intros (<- & <- & R1 & <- & Hu1 & Hv1 & Eh). rewrite (by_pos_same u1 v1 Hu1 Hv1 Eh).
      destruct (by_pos_ok g root par dep Ht h hv pos posr Hd u1 v1 Hu1 Hv1 Eh) as (x & y & -> & _ & Hx & Hy & E & A). cbn [mbind res_bind fst snd h' h_pos].
      rewrite (vget_ok _ _ _ (P_get _ Hx)), (vget_ok _ _ _ (P_get _ Hy)), (vget_ok _ _ _ (d_pos _ _ _ _ _ _ _ _ Hd _ Hx)), (vget_ok _ _ _ (d_pos _ _ _ _ _ _ _ _ Hd _ Hy)). cbn [mbind res_bind].
      eapply sim_bind; [apply prod_sim; eauto|]. intros [t3 z] [t4 z']. cbn [fst snd]. intros [R2 <-]. cbn. auto.
  Qed.
  Lemma apply_path_sim A0 t t' u v f k : rel A0 t t' ->
    sim (fun x y => hd_tree x = h /\ hd_tree y = h' /\ rel A0 (hd_data x) (hd_data y)) (apply_path_fuel op idm mapping comp k (Hld t h) u v f) (apply_path_fuel op idm mapping comp k (Hld t' h') u v f).
  Proof.
    intros R. unfold apply_path_fuel. cbn [hd_tree hd_data]. eapply sim_bind.
    - apply (rloop_sim (fun s s' => s.1.1 = s'.1.1 /\ s.1.2 = s'.1.2 /\ rel A0 s.2 s'.2)
        (fun s s' => s.1.1 = s'.1.1 /\ s.1.2 = s'.1.2 /\ rel A0 s.2 s'.2 /\ s.1.1 < n /\ s.1.2 < n /\ head s.1.1 = head s.1.2)); [|cbn; auto].
      intros [[u1 v1] t1] [[u2 v2] t2]. cbn [fst snd]. intros (<- & <- & R1). unfold apply_path_step. change (climb h' u1 v1) with (climb h u1 v1). apply sim_same. intros c Ec. pose proof (climb_lt u1 v1 c Ec) as [Hu1 Hv1].
      destruct (climb_ok g root par dep Ht h hv pos posr Hd u1 v1 Hu1 Hv1) as [[Eh Ec']|(u3 & v3 & Ec' & Hsw & Hu3 & Hv3 & Hh & Hp & _)]; rewrite Ec in Ec'; injection Ec' as ->.
      + cbn. auto 10.
      + cbn [h' h_head h_parent h_pos]. rewrite (vget_ok _ _ _ (d_head _ _ _ _ _ _ _ _ Hd u3 Hu3)). cbn [mbind res_bind].
        rewrite (vget_ok _ _ _ (P_get _ Hh)), (vget_ok _ _ _ (P_get _ Hu3)), (vget_ok _ _ _ (d_pos _ _ _ _ _ _ _ _ Hd _ Hh)), (vget_ok _ _ _ (d_pos _ _ _ _ _ _ _ _ Hd _ Hu3)). cbn [mbind res_bind].
        eapply sim_bind; [apply apply_sim; [exact Hh|exact Hu3|eapply head_anc; eauto|eapply head_head; eauto|exact R1]|]. intros t3 t4 R2.
        rewrite (vget_ok _ _ _ (d_parent _ _ _ _ _ _ _ _ Hd _ Hh)). cbn. auto.
    - intros [[u1 v1] t1] [[u2 v2] t2]. cbn [fst snd]. intros (<- & <- & R1 & Hu1 & Hv1 & Eh). rewrite (by_pos_same u1 v1 Hu1 Hv1 Eh).
      destruct (by_pos_ok g root par dep Ht h hv pos posr Hd u1 v1 Hu1 Hv1 Eh) as (x & y & -> & _ & Hx & Hy & E & A). cbn [mbind res_bind fst snd h' h_pos].
      rewrite (vget_ok _ _ _ (P_get _ Hx)), (vget_ok _ _ _ (P_get _ Hy)), (vget_ok _ _ _ (d_pos _ _ _ _ _ _ _ _ Hd _ Hx)), (vget_ok _ _ _ (d_pos _ _ _ _ _ _ _ _ Hd _ Hy)). cbn [mbind res_bind].
      eapply sim_bind; [apply apply_sim; eauto|]. intros t3 t4 R2. cbn. auto.
  Qed.
  Lemma pos_gets u : (u < n /\ vget (h_pos h) u = Ok (pos u) /\ vget Pl u = Ok (P u)) \/ (vget (h_pos h) u = Panic /\ vget Pl u = Panic).
  Proof.
    destruct (decide (u < n)) as [Hu|Hu]; [left|right].
    - split; [exact Hu|]. rewrite (vget_ok _ _ _ (P_get u Hu)), (vget_ok _ _ _ (d_pos _ _ _ _ _ _ _ _ Hd u Hu)). auto.
    - rewrite (pos_panic g root par dep h hv pos posr Hd) by lia. split; [reflexivity|]. apply vget_panic. rewrite (proj1 HP). lia.
  Qed.
  Lemma step_sim A0 x y o : hd_tree x = h -> hd_tree y = h' -> rel A0 (hd_data x) (hd_data y) -> path_call o ->
    sim (fun r r' => hd_tree r.1 = h /\ hd_tree r'.1 = h' /\ rel A0 (hd_data r.1) (hd_data r'.1) /\ r.2 = r'.2) (hld_step e op idm mapping comp x o) (hld_step e op idm mapping comp y o).
  Proof.
    destruct x as [t hx], y as [t' hy]. cbn [hd_tree hd_data]. intros -> -> R Ho. assert (Ef : path_fuel (Hld t h) = path_fuel (Hld t' h')) by (unfold path_fuel; cbn [hd_tree h' h_pos]; rewrite (proj1 HP), (hw_pos _ _ (d_wf _ _ _ _ _ _ _ _ Hd)); reflexivity).
    destruct o as [u v f|u v|u f|u|u|u s|o]; try contradiction; cbn [hld_step].
    - unfold apply_path. rewrite Ef. eapply sim_bind; [apply apply_path_sim, R|]. intros [t1 h1] [t2 h2] (E1 & E2 & R1). cbn in *. auto.
    - unfold path_prod. rewrite Ef. eapply sim_bind; [apply path_prod_sim, R|]. intros [[t1 h1] z] [[t2 h2] z'] (E1 & E2 & R1 & E). cbn in *. subst. auto.
    - unfold hld_get. cbn [hd_tree hd_data h' h_pos]. destruct (pos_gets u) as [(Hu & -> & ->)|[-> ->]]; [|exact I]. cbn [mbind res_bind]. destruct R as (a & A & I1 & I2 & Sm). pose proof Sm as (La & LA & Hs & Ho').
      destruct (lookup_lt_is_Some_2 a (pos u)) as [s Es]; [rewrite La; apply (d_lt _ _ _ _ _ _ _ _ Hd u Hu)|]. destruct (get_ok e op idm mapping comp L ML t a I1 (pos u) s Es) as (t1 & -> & I1').
      rewrite (Hs u Hu) in Es. destruct (get_ok e op idm mapping comp L ML t' A I2 (P u) s Es) as (t2 & -> & I2'). cbn. split_and!; try reflexivity. exists a, A. auto.
    - unfold hld_set. cbn [hd_tree hd_data h' h_pos]. destruct (pos_gets u) as [(Hu & -> & ->)|[-> ->]]; [|exact I]. cbn [mbind res_bind]. destruct R as (a & A & I1 & I2 & Sm). pose proof Sm as (La & LA & Hs & Ho').
      pose proof (d_lt _ _ _ _ _ _ _ _ Hd u Hu) as [Hp _]. pose proof (P_lt u Hu) as HPl.
      destruct (set_ok e op idm mapping comp L ML t a I1 (pos u) s) as (t1 & -> & I1'); [rewrite (li_n _ _ _ _ _ _ I1); lia|]. destruct (set_ok e op idm mapping comp L ML t' A I2 (P u) s) as (t2 & -> & I2'); [rewrite (li_n _ _ _ _ _ _ I2); lia|].
      cbn. split_and!; try reflexivity. do 2 eexists. split; [exact I1'|]. split; [exact I2'|]. split; [rewrite insert_length; exact La|]. split; [rewrite insert_length; exact LA|]. split.
      + intros v Hv. destruct (decide (v = u)) as [->|Hne]; [rewrite !list_lookup_insert by lia; reflexivity|]. rewrite !list_lookup_insert_ne; [apply Hs, Hv|intros E; apply Hne; symmetry; apply P_inj; assumption|intros E; apply Hne; symmetry; apply (d_inj _ _ _ _ _ _ _ _ Hd); assumption].
      + intros i Hi. rewrite list_lookup_insert_ne; [apply Ho', Hi|]. intros <-. apply Hi. eapply elem_of_list_lookup_2, P_get, Hu.
  Qed.
  Lemma run_sim A0 ops : forall x y, Forall path_call ops -> hd_tree x = h -> hd_tree y = h' -> rel A0 (hd_data x) (hd_data y) ->
    sim (fun r r' => hd_tree r'.1 = h' /\ rel A0 (hd_data r.1) (hd_data r'.1) /\ r.2 = r'.2) (run (hld_step e op idm mapping comp) x ops) (run (hld_step e op idm mapping comp) y ops).
  Proof.
    induction ops as [|o ops IH]; intros x y Ho E1 E2 R; [cbn; auto|]. apply Forall_cons in Ho as [Ho Hs]. cbn [run]. eapply sim_bind; [apply (step_sim A0); eassumption|].
    intros [x1 o1] [y1 o2]. cbn [fst snd]. intros (E3 & E4 & R1 & <-). eapply sim_bind; [apply IH; eassumption|]. intros [x2 l1] [y2 l2]. cbn [fst snd]. intros (E5 & R2 & <-). cbn. auto.
  Qed.
End pos.
