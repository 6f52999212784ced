From Verif Require Import Prelude UtilModel ArraySpec TreeSpec TreeProof LiftModel LiftProof SparseModel SparseSpec SparseProof SparseProps EulerSpec EulerProof VirtProof RmqModel.

Lemma shallower_assoc x y z : shallower x (shallower y z) = shallower (shallower x y) z.
Proof. destruct x as [x i], y as [y j], z as [z k]. unfold shallower. cbn [fst snd]. destruct (Nat.leb_spec y z), (Nat.leb_spec x y); cbn [fst snd]; repeat (match goal with |- context [?a <=? ?b] => destruct (Nat.leb_spec a b) end); try reflexivity; lia. Qed.
Lemma shallower_idem x : shallower x x = x.
Proof. unfold shallower. destruct (_ <=? _); reflexivity. Qed.
Lemma fold_shallow l : forall x, fold1 shallower l = Some x -> x ∈ l /\ forall y, y ∈ l -> x.1 <= y.1.
Proof.
  assert (G : forall l x0, fold_left shallower l x0 ∈ x0 :: l /\ forall y, y ∈ x0 :: l -> (fold_left shallower l x0).1 <= y.1).
  { clear. induction l as [|a l IH]; intros x0; cbn [fold_left]; [split; [left|intros y H; apply elem_of_list_singleton in H as ->; lia]|].
    destruct (IH (shallower x0 a)) as [H1 H2]. assert (S1 : shallower x0 a = x0 \/ shallower x0 a = a) by (unfold shallower; destruct (_ <=? _); auto).
    assert (S2 : (shallower x0 a).1 <= x0.1 /\ (shallower x0 a).1 <= a.1) by (unfold shallower; destruct (Nat.leb_spec x0.1 a.1); lia). split.
    - apply elem_of_cons in H1 as [H1|H1]; [rewrite H1; destruct S1 as [-> | ->]; [left|right; left]|right; right; exact H1].
    - intros y Hy. pose proof (H2 _ (elem_of_list_here _ _)). apply elem_of_cons in Hy as [->|Hy]; [lia|]. apply elem_of_cons in Hy as [->|Hy]; [lia|]. apply H2. right. exact Hy. }
  destruct l as [|a l]; intros x H; [discriminate|]. cbn in H. injection H as <-. apply G.
Qed.

Section rmq.
  Context (g : list (list nat)) (root : nat) (par dep : nat -> nat) (Ht : rtree g root par dep).
  Context (level : nat) (Hlev : 1 <= level) (Hpow : length g < 2 ^ level) (b : bl) (B : built g par dep level b) (l : list (nat * nat)) (T : tour g root b l).
  Notation n := (length g).
  Notation anc := (anc par).
  Notation lcap := (lcap par).
  Notation tin := (tin b).

  Lemma ord_tin i v : l.*1 !! i = Some v <-> v < n /\ tin v = i.
  Proof.
    split.
    - intros H. split; [apply elem_of_list_lookup_2 in H; rewrite (to_perm _ _ _ _ T), elem_of_seq in H; lia|]. rewrite list_lookup_fmap in H. destruct (l !! i) as [[v' k]|] eqn:E; [|discriminate]. injection H as ->. destruct (to_times _ _ _ _ T i v k E) as [E' _]. unfold VirtProof.tin. rewrite E'. reflexivity.
    - intros [Hv <-]. destruct (tour_at _ _ _ _ T v Hv) as (i & k & Hi & Ho & _). destruct (to_times _ _ _ _ T i v k Hi) as [E _]. unfold VirtProof.tin. rewrite E. exact Ho.
  Qed.
  Lemma tin_lt v : v < n -> tin v < n.
  Proof. intros Hv. assert (H : l.*1 !! tin v = Some v) by (apply ord_tin; auto). apply lookup_lt_Some in H. rewrite fmap_length, (tour_length _ _ _ _ T) in H. exact H. Qed.
  Lemma at_tin i : i < n -> exists v, v < n /\ tin v = i.
  Proof. intros Hi. destruct (lookup_lt_is_Some_2 (l.*1) i) as [v Hv]; [rewrite fmap_length, (tour_length _ _ _ _ T); exact Hi|]. exists v. apply ord_tin, Hv. Qed.

  Lemma fill_ok : exists a, rfor (range 0 n) (fun v a => t ← vget (bl_tin b) v; d ← vget (bl_dep b) v; vset a t (d, v)) (replicate n (0, 0)) = Ok a /\ length a = n /\ forall v, v < n -> a !! tin v = Some (dep v, v).
  Proof.
    destruct (rfor_inv (fun done a => length a = n /\ forall v, v ∈ done -> a !! tin v = Some (dep v, v)) (range 0 n) (fun v a => t ← vget (bl_tin b) v; d ← vget (bl_dep b) v; vset a t (d, v)) (replicate n (0, 0))) as (a & E & La & Ha).
    - split; [apply replicate_length|]. intros v Hv. inversion Hv.
    - intros done v rest a Hs [La Ha]. assert (v < n /\ (forall w, w ∈ done -> w < n /\ w <> v)) as [Hv Hd].
      { unfold range in Hs. rewrite Nat.sub_0_r in Hs. pose proof (NoDup_seq 0 n) as N. split.
        - assert (v ∈ seq 0 n) as H by (rewrite Hs; apply elem_of_app; right; left). rewrite elem_of_seq in H. lia.
        - intros w Hw. split; [assert (w ∈ seq 0 n) as H by (rewrite Hs; apply elem_of_app; left; exact Hw); rewrite elem_of_seq in H; lia|]. intros ->. rewrite Hs in N. apply NoDup_app in N as (_ & N & _). apply (N v Hw). left. }
      rewrite (tin_get g par dep level b B v Hv). cbn [mbind res_bind]. rewrite (vget_ok _ _ _ (b_dep _ _ _ _ _ B v Hv)). cbn [mbind res_bind]. rewrite vset_ok by (rewrite La; apply tin_lt, Hv).
      eexists. split; [reflexivity|]. split; [rewrite insert_length; exact La|]. intros w Hw. apply elem_of_app in Hw as [Hw|Hw].
      + destruct (Hd w Hw) as [Hwn Hne]. rewrite list_lookup_insert_ne; [apply Ha, Hw|]. intros E. apply Hne. symmetry. apply (tin_inj g root par dep Ht level Hlev Hpow b B); [exact Hv|exact Hwn|exact E].
      + apply elem_of_list_singleton in Hw as ->. apply list_lookup_insert. rewrite La. apply tin_lt, Hv.
    - exists a. split; [exact E|]. split; [exact La|]. intros v Hv. apply Ha. unfold range. apply elem_of_seq. lia.
  Qed.
  (** The shallowest vertex after u up to v is a child of their lca. *)
  Lemma shallow_child u v w a : u < n -> v < n -> w < n -> tin u < tin w <= tin v -> lcap u v a -> (forall x, x < n -> tin u < tin x <= tin v -> dep w <= dep x) -> par w = a.
  Proof.
    intros Hu Hv Hw Hin L Hmin. pose proof (lcap_lt g root par dep Ht u v a Hu L) as Ha. pose proof L as (A1 & A2 & A3).
    assert (At : forall x y, x < n -> y < n -> anc x y <-> tin x <= tin y < tout b x) by (intros; apply (anc_tin g par dep level Hlev Hpow b B); assumption).
    assert (Ta : tin a <= tin u) by (apply (At a u); assumption).
    assert (Aw : anc a w) by (apply At; try assumption; apply At in A1, A2; try assumption; lia).
    assert (Hwa : w <> a) by (intros ->; lia). assert (Hva : v <> a) by (intros ->; lia).
    destruct (proj1 (anc_split g root par dep Ht a v Hv) A2) as [E|(c & Hc & Cv)]; [congruence|]. pose proof Hc as (Hcn & _). pose proof (child_dep g root par dep Ht a c Hc) as Dc.
    assert (Tc : tin u < tin c <= tin v).
    { apply At in Cv as Cv'; try assumption. split; [|lia]. destruct (Nat.le_gt_cases (tin c) (tin u)) as [Hle|]; [|assumption]. exfalso. assert (Cu : anc c u) by (apply At; try assumption; lia).
      apply (child_not_anc g root par dep Ht a c Hc). apply A3; assumption. }
    specialize (Hmin c Hcn Tc). destruct (proj1 (anc_split g root par dep Ht a w Hw) Aw) as [E|(c' & Hc' & Cw)]; [congruence|]. pose proof Hc' as (Hcn' & _ & Pc). pose proof (child_dep g root par dep Ht a c' Hc') as Dc'.
    rewrite <- Pc. f_equal. symmetry. apply (anc_dep_eq g root par dep Ht c' w Hw Cw). lia.
  Qed.
  Lemma rmq_ok : (Z.of_nat n < 2 ^ 64)%Z -> exists data, rmq_from b = Ok data /\ forall u v, u < n -> v < n -> exists a, rmq_lca b data u v = Ok a /\ lcap u v a.
  Proof.
    intros Hn64. destruct fill_ok as (a & E & La & Ha). unfold rmq_from. rewrite (w_tin _ _ _ (b_wf _ _ _ _ _ B)). cbv zeta. rewrite E. cbn [mbind res_bind].
    destruct (C08_sparse_table shallower shallower_assoc a (0, 0) shallower_idem) as (data & Ed & Hd & _); [rewrite La; pose proof (t_root _ _ _ _ Ht); lia|rewrite La; exact Hn64|]. rewrite Ed. exists data. split; [reflexivity|].
    assert (K : forall u v, u < n -> v < n -> tin u < tin v -> exists w x, sp_get shallower data (tin u + 1) (tin v + 1) = Ok w /\ pa_get (bl_pa b) w.2 0 = Ok x /\ lcap u v x).
    { intros u v Hu Hv Hlt. pose proof (tin_lt v Hv) as Hvl. destruct (Hd (tin u + 1) (tin v + 1) ltac:(lia)) as (w & Ew & Fw). apply fold_shallow in Fw as [F1 F2].
      assert (Sl : forall y, y ∈ slice a (tin u + 1) (tin v + 1) <-> exists z, z < n /\ tin u < tin z <= tin v /\ y = (dep z, z)).
      { intros y. rewrite elem_of_list_lookup. split.
        - intros [i Hi]. assert (Hil : i < tin v + 1 - (tin u + 1)) by (apply lookup_lt_Some in Hi; unfold slice in Hi; rewrite take_length in Hi; lia). rewrite slice_lookup in Hi by lia. destruct (at_tin (tin u + 1 + i) ltac:(lia)) as (z & Hz & Ez). exists z. split; [exact Hz|]. split; [lia|]. rewrite <- Ez, (Ha z Hz) in Hi. congruence.
        - intros (z & Hz & Hr & ->). exists (tin z - (tin u + 1)). rewrite slice_lookup by lia. replace (tin u + 1 + (tin z - (tin u + 1))) with (tin z) by lia. apply Ha, Hz. }
      apply Sl in F1 as (z & Hz & Hr & ->). cbn [fst snd] in *. exists (dep z, z), (par z). split; [exact Ew|]. split.
      - cbn [snd]. apply (good_pa_get par level _ z 0 (b_pa _ _ _ _ _ B z Hz)). lia.
      - destruct (lcap_exists _ _ _ _ Ht u v Hu Hv) as [x Lx]. rewrite (shallow_child u v z x Hu Hv Hz Hr Lx); [exact Lx|]. intros y Hy Hyr. apply (F2 (dep y, y)). apply Sl. eauto. }
    intros u v Hu Hv. unfold rmq_lca. destruct (Nat.eqb_spec u v) as [->|Hne]; [exists v; split; [reflexivity|apply lcap_anc, anc_refl]|].
    rewrite !(tin_get g par dep level b B) by assumption. cbn [mbind res_bind]. destruct (Nat.lt_trichotomy (tin u) (tin v)) as [Hlt|[Heq|Hlt]].
    - rewrite Nat.min_l, Nat.max_r by lia. destruct (K u v Hu Hv Hlt) as (w & x & -> & Ex & L). cbn [mbind res_bind]. eauto.
    - exfalso. apply Hne. apply (tin_inj g root par dep Ht level Hlev Hpow b B); assumption.
    - rewrite Nat.min_r, Nat.max_l by lia. destruct (K v u Hv Hu Hlt) as (w & x & -> & Ex & L). cbn [mbind res_bind]. exists x. split; [exact Ex|]. apply lcap_sym, L.
  Qed.
End rmq.
