From Coq Require Import Sorting.Sorted.
From Verif Require Import Prelude UtilModel TreeSpec TreeProof HldSpec LiftModel LiftProof VirtModel VirtProof TreeMetricProof TreeAgreeProof PathSumProof SteinerModel SteinerSpec.

(** Sums over the first n numbers. *)
Fixpoint fs (n : nat) (f : nat -> nat) : nat := match n with 0 => 0 | S n => fs n f + f n end.
Lemma fs_ext n f h : (forall z, z < n -> f z = h z) -> fs n f = fs n h.
Proof. induction n as [|n IH]; intros H; [reflexivity|]. cbn. rewrite IH by (intros; apply H; lia). rewrite H by lia. reflexivity. Qed.
Lemma fs_add n f h : fs n (fun z => f z + h z) = fs n f + fs n h.
Proof. induction n as [|n IH]; cbn; lia. Qed.
Lemma fs_0 n : fs n (fun _ => 0) = 0.
Proof. induction n as [|n IH]; cbn; lia. Qed.
Lemma fs_point n c : fs n (fun z => if decide (c = z) then 1 else 0) = if decide (c < n) then 1 else 0.
Proof. induction n as [|n IH]; [reflexivity|]. cbn [fs]. rewrite IH. repeat case_decide; lia. Qed.
Lemma fs_filter n (f : nat -> bool) : length (filter (fun z => f z = true) (seq 0 n)) = fs n (fun z => Nat.b2n (f z)).
Proof.
  induction n as [|n IH]; [reflexivity|]. rewrite seq_S, filter_app, app_length, IH. cbn [fs]. f_equal. cbn. destruct (f n); reflexivity.
Qed.

(** Occurrences. *)
Fixpoint occ (z : nat) (p : list nat) : nat := match p with [] => 0 | y :: p => (if decide (y = z) then 1 else 0) + occ z p end.
Lemma occ_app z p q : occ z (p ++ q) = occ z p + occ z q.
Proof. induction p as [|y p IH]; cbn; [reflexivity|]. rewrite IH. lia. Qed.
Lemma occ_perm z p q : p ≡ₚ q -> occ z p = occ z q.
Proof. induction 1; cbn; lia. Qed.
Lemma occ_nodup z p : NoDup p -> occ z p = if decide (z ∈ p) then 1 else 0.
Proof.
  induction 1 as [|y p Hy N IH]; [destruct (decide (z ∈ [])) as [H|]; [inversion H|reflexivity]|]. cbn [occ]. rewrite IH.
  destruct (decide (y = z)) as [->|Ne]; destruct (decide (z ∈ p)) as [H|H].
  - contradiction.
  - rewrite decide_True by left. reflexivity.
  - rewrite decide_True by (right; exact H). reflexivity.
  - rewrite decide_False by (rewrite elem_of_cons; intuition congruence). reflexivity.
Qed.
Lemma occ_sum n p : Forall (fun z => z < n) p -> fs n (fun z => occ z p) = length p.
Proof.
  induction 1 as [|y p Hy F IH]; cbn [occ]; [apply fs_0|]. rewrite fs_add, fs_point, IH, decide_True by exact Hy. reflexivity.
Qed.

(** Changes of a flag along a list. *)
Section flag.
  Context (f : nat -> bool).
  Fixpoint tr (a : bool) (l : list nat) : nat := match l with [] => 0 | v :: l => Nat.b2n (xorb a (f v)) + tr (f v) l end.
  Fixpoint ends (a : bool) (l : list nat) : bool := match l with [] => a | v :: l => ends (f v) l end.
  Lemma tr_app l1 : forall a l2, tr a (l1 ++ l2) = tr a l1 + tr (ends a l1) l2.
  Proof. induction l1 as [|v l1 IH]; intros a l2; cbn; [reflexivity|]. rewrite IH. lia. Qed.
  Lemma ends_app l1 : forall a l2, ends a (l1 ++ l2) = ends (ends a l1) l2.
  Proof. induction l1 as [|v l1 IH]; intros a l2; cbn; [reflexivity|]. apply IH. Qed.
  Lemma ends_const c l : Forall (fun v => f v = c) l -> forall a, ends a l = match l with [] => a | _ => c end.
  Proof. induction 1 as [|v l E F IH]; intros a; cbn; [reflexivity|]. rewrite E, IH. destruct l; reflexivity. Qed.
  Lemma tr_const c l : Forall (fun v => f v = c) l -> forall a, tr a l = match l with [] => 0 | _ => Nat.b2n (xorb a c) end.
  Proof. induction 1 as [|v l E F IH]; intros a; cbn; [reflexivity|]. rewrite E, IH. destruct l; [lia|]. rewrite xorb_nilpotent. cbn. lia. Qed.
  Lemma ends_last l u : last l = Some u -> forall a, ends a l = f u.
  Proof. induction l as [|v l IH]; intros E a; [discriminate|]. cbn [ends]. destruct l as [|w l]; [injection E as ->; reflexivity|]. apply IH. exact E. Qed.
  Lemma exists_const c l : Forall (fun v => f v = c) l -> existsb f l = match l with [] => false | _ => c end.
  Proof. induction 1 as [|v l E F IH]; cbn; [reflexivity|]. rewrite E, IH. destruct l, c; reflexivity. Qed.
  Lemma all_const c l : Forall (fun v => f v = c) l -> forallb f l = match l with [] => true | _ => c end.
  Proof. induction 1 as [|v l E F IH]; cbn; [reflexivity|]. rewrite E, IH. destruct l, c; reflexivity. Qed.
  (** Off, on, off, around a circle: two changes, or none. *)
  Lemma tr_circle l1 l2 l3 u : Forall (fun v => f v = false) l1 -> Forall (fun v => f v = true) l2 -> Forall (fun v => f v = false) l3 -> last (l1 ++ l2 ++ l3) = Some u ->
    tr (f u) (l1 ++ l2 ++ l3) = 2 * Nat.b2n (existsb f (l1 ++ l2 ++ l3) && negb (forallb f (l1 ++ l2 ++ l3))).
  Proof.
    intros F1 F2 F3 L. rewrite <- (ends_last _ _ L true). rewrite !tr_app, !ends_app, !existsb_app, !forallb_app.
    rewrite !(tr_const _ _ F1), !(tr_const _ _ F2), !(tr_const _ _ F3), !(ends_const _ _ F3), !(ends_const _ _ F2), !(ends_const _ _ F1).
    rewrite !(exists_const _ _ F1), !(exists_const _ _ F2), !(exists_const _ _ F3), !(all_const _ _ F1), !(all_const _ _ F2), !(all_const _ _ F3).
    destruct l1, l2, l3; reflexivity.
  Qed.
End flag.
Lemma split_at (h : nat -> nat) t l : StronglySorted (fun x y => h x <= h y) l -> exists l1 l2, l = l1 ++ l2 /\ Forall (fun v => h v < t) l1 /\ Forall (fun v => t <= h v) l2 /\ StronglySorted (fun x y => h x <= h y) l2.
Proof.
  induction 1 as [|x l S IH F]; [exists [], []; split_and!; constructor|]. destruct (le_lt_dec t (h x)) as [H|H].
  - exists [], (x :: l). split; [reflexivity|]. split; [constructor|]. split; [|constructor; assumption]. constructor; [exact H|]. rewrite Forall_forall in F |- *. intros y Hy. specialize (F y Hy). lia.
  - destruct IH as (l1 & l2 & -> & F1 & F2 & S2). exists (x :: l1), l2. split; [reflexivity|]. split; [constructor; assumption|]. auto.
Qed.

(** Walks. *)
Lemma walk_to g u v l z : walk g u v l -> z ∈ l -> exists p, walk g u z p /\ p ⊆ l.
Proof.
  induction 1 as [u|u w v l E W IH]; intros Hz.
  - apply elem_of_list_singleton in Hz as ->. exists [u]. split; [constructor|]. intros x; auto.
  - apply elem_of_cons in Hz as [->|Hz].
    + exists [u]. split; [constructor|]. intros x Hx. apply elem_of_list_singleton in Hx as ->. left.
    + destruct (IH Hz) as (p & Wp & Sp). exists (u :: p). split; [econstructor; eassumption|]. intros x Hx. apply elem_of_cons in Hx as [->|Hx]; [left|right; apply Sp; exact Hx].
Qed.
Lemma walk_from g u v l z : walk g u v l -> z ∈ l -> exists p q, walk g z v p /\ l = q ++ p.
Proof.
  induction 1 as [u|u w v l E W IH]; intros Hz.
  - apply elem_of_list_singleton in Hz as ->. exists [u], []. split; [constructor|reflexivity].
  - apply elem_of_cons in Hz as [->|Hz]; [exists (u :: l), []; split; [econstructor; eassumption|reflexivity]|].
    destruct (IH Hz) as (p & q & Wp & ->). exists p, (u :: q). split; [exact Wp|reflexivity].
Qed.
Lemma walk_simple g u v l : walk g u v l -> exists p, walk g u v p /\ NoDup p /\ p ⊆ l.
Proof.
  induction 1 as [u|u w v l E W (p & Wp & N & Sp)].
  - exists [u]. split; [constructor|]. split; [apply NoDup_singleton|]. intros x; auto.
  - destruct (decide (u ∈ p)) as [Hu|Hu].
    + destruct (walk_from g w v p u Wp Hu) as (p' & q & W' & ->). exists p'. split; [exact W'|]. split; [exact (proj2 (proj2 (proj1 (NoDup_app _ _) N)))|]. intros x Hx. right. apply Sp, elem_of_app. right. exact Hx.
    + exists (u :: p). split; [econstructor; eassumption|]. split; [constructor; assumption|]. intros x Hx. apply elem_of_cons in Hx as [->|Hx]; [left|right; apply Sp; exact Hx].
Qed.

Section Proof.
  Context (g : list (list nat)) (root : nat) (Tr : is_tree g) (Hr : root < length g) (par dep : nat -> nat) (Ht : rtree g root par dep).
  Context (level : nat) (Hlev : 1 <= level) (Hpow : length g < 2 ^ level) (b : bl) (B : built g par dep level b).
  Context (path : nat -> nat -> list nat) (Hpath : forall u v, u < length g -> v < length g -> is_path g u v (path u v)).
  Notation n := (length g).
  Notation anc := (anc par).
  Notation lcap := (lcap par).
  Notation tin := (tin b).
  Notation tout := (tout b).
  Notation sorted := (Sorted (fun x y => tin x <= tin y)).
  Definition A (z x : nat) : bool := (tin z <=? tin x) && (tin x <? tout z).
  Lemma A_anc z x : z < n -> x < n -> A z x = true <-> anc z x.
  Proof. intros Hz Hx. rewrite (anc_tin g par dep level Hlev Hpow b B z x Hz Hx). unfold A. rewrite andb_true_iff, Nat.leb_le, Nat.ltb_lt. reflexivity. Qed.

  Lemma occ_root z x : z < n -> x < n -> occ z (path root x) = Nat.b2n (A z x).
  Proof.
    intros Hz Hx. rewrite occ_nodup by (apply Hpath; assumption). pose proof (root_member g root Tr Hr path Hpath x z Hx Hz) as M. rewrite (ancestor_iff _ _ _ _ Ht z x Hz Hx), <- (A_anc z x Hz Hx) in M.
    destruct (decide (z ∈ path root x)) as [H|H], (A z x); try reflexivity; exfalso; [apply M in H; discriminate|apply H, M; reflexivity].
  Qed.
  Lemma occ_path u v l z : u < n -> v < n -> z < n -> lcap u v l -> occ z (path u v) = Nat.b2n (xorb (A z u) (A z v)) + if decide (l = z) then 1 else 0.
  Proof.
    intros Hu Hv Hz L. pose proof (lcap_lt g root par dep Ht u v l Hu L) as Hl.
    pose proof (split_lca g root par dep Ht u v l _ _ _ _ Hu Hv L (Hpath u v Hu Hv) (Hpath root u Hr Hu) (Hpath root v Hr Hv) (Hpath root l Hr Hl)) as S.
    apply (occ_perm z) in S. rewrite !occ_app, !occ_root in S by assumption. cbn [occ] in S.
    assert (E : A z l = A z u && A z v). { apply Bool.eq_true_iff_eq. rewrite andb_true_iff, !A_anc by assumption. apply (lcap_spec par u v l z L). }
    rewrite E in S. destruct (A z u), (A z v); cbn in S |- *; lia.
  Qed.
  Lemma path_lt u v z : u < n -> v < n -> z ∈ path u v -> z < n.
  Proof. intros Hu Hv Hz. destruct (Hpath u v Hu Hv) as [W N]. apply (between_lt g root par dep Ht u v z Hu). exists (path u v). auto. Qed.
  Lemma dis_sum u v : u < n -> v < n -> bl_dis b u v = Ok (fs n (fun z => Nat.b2n (xorb (A z u) (A z v)))).
  Proof.
    intros Hu Hv. destruct (dis_ok g root par dep Ht level Hlev Hpow b B u v Hu Hv) as (d & -> & D). f_equal. destruct (Hpath u v Hu Hv) as [W N].
    pose proof (proj1 (shortest_simple g root par dep Ht u v d _ D W) N) as L. destruct (lcap_exists _ _ _ _ Ht u v Hu Hv) as (l & Hl). pose proof (lcap_lt g root par dep Ht u v l Hu Hl) as Hln.
    rewrite <- (occ_sum n) in L by (apply Forall_forall; intros z Hz; exact (path_lt u v z Hu Hv Hz)).
    rewrite (fs_ext n _ (fun z => Nat.b2n (xorb (A z u) (A z v)) + if decide (l = z) then 1 else 0)) in L by (intros z Hz; apply occ_path; assumption).
    rewrite fs_add, fs_point, decide_True in L by exact Hln. lia.
  Qed.
  Lemma around_sum vs : forall u d, u < n -> Forall (fun v => v < n) vs -> exists w, rfor vs (fun v s => e ← bl_dis b s.1 v; Ok (v, s.2 + e)) (u, d) = Ok (w, d + fs n (fun z => tr (A z) (A z u) vs)).
  Proof.
    induction vs as [|v vs IH]; intros u d Hu F; [exists u; cbn; rewrite fs_0, Nat.add_0_r; reflexivity|]. inversion F as [|? ? Hv F']; subst. cbn [rfor fst snd]. rewrite dis_sum by assumption. cbn [mbind res_bind].
    destruct (IH v (d + fs n (fun z => Nat.b2n (xorb (A z u) (A z v)))) Hv F') as (w & ->). exists w. do 2 f_equal. cbn [tr]. rewrite fs_add. lia.
  Qed.
  Definition mixed (vs : list nat) (z : nat) : bool := existsb (A z) vs && negb (forallb (A z) vs).
  Lemma tr_mixed vs u z : sorted vs -> last vs = Some u -> tr (A z) (A z u) vs = 2 * Nat.b2n (mixed vs z).
  Proof.
    intros S L. apply Sorted_StronglySorted in S; [|intros x y w; lia]. destruct (split_at tin (tin z) vs S) as (l1 & r & -> & F1 & F2 & S2). destruct (split_at tin (tout z) r S2) as (l2 & l3 & -> & F3 & F4 & _).
    unfold mixed. rewrite Forall_app in F2. destruct F2 as [F2 _]. apply tr_circle; [| | |exact L]; rewrite Forall_forall in *; intros v Hv; unfold A.
    - specialize (F1 v Hv). apply andb_false_iff. left. apply Nat.leb_gt. lia.
    - specialize (F2 v Hv). specialize (F3 v Hv). cbn in *. apply andb_true_iff. rewrite Nat.leb_le, Nat.ltb_lt. lia.
    - specialize (F4 v Hv). cbn in *. apply andb_false_iff. right. apply Nat.ltb_ge. lia.
  Qed.

  (** The vertices on the paths between vertices of vs. *)
  Definition inS (vs : list nat) (z : nat) : bool := existsb (fun x => existsb (fun y => bool_decide (z ∈ path x y)) vs) vs.
  Lemma inS_iff vs z : inS vs z = true <-> exists x y, x ∈ vs /\ y ∈ vs /\ z ∈ path x y.
  Proof.
    unfold inS. rewrite existsb_exists. split.
    - intros (x & Hx & H). apply existsb_exists in H as (y & Hy & H). apply bool_decide_eq_true in H. exists x, y. rewrite <- elem_of_list_In in Hx, Hy. auto.
    - intros (x & y & Hx & Hy & H). exists x. rewrite <- elem_of_list_In. split; [exact Hx|]. apply existsb_exists. exists y. rewrite <- elem_of_list_In. split; [exact Hy|]. apply bool_decide_eq_true. exact H.
  Qed.
  Lemma on_path_iff x y l z : x < n -> y < n -> z < n -> lcap x y l -> z ∈ path x y <-> xorb (A z x) (A z y) = true \/ l = z.
  Proof.
    intros Hx Hy Hz L. pose proof (occ_path x y l z Hx Hy Hz L) as E. rewrite occ_nodup in E by (apply Hpath; assumption). destruct (decide (z ∈ path x y)) as [H|H], (xorb (A z x) (A z y)), (decide (l = z)); cbn in E; try lia; split; try tauto; try (intros [?|?]; congruence).
  Qed.
  Lemma mixed_iff vs z : mixed vs z = true <-> (exists x, x ∈ vs /\ A z x = true) /\ exists y, y ∈ vs /\ A z y = false.
  Proof.
    unfold mixed. rewrite andb_true_iff, existsb_exists, negb_true_iff. split.
    - intros [(x & Hx & E) H]. split; [exists x; rewrite elem_of_list_In; auto|]. induction vs as [|v vs IH]; [discriminate|]. cbn in H. destruct (A z v) eqn:Ev; [|exists v; split; [left|exact Ev]].
      clear Hx E. assert (K : exists y, y ∈ vs /\ A z y = false). { clear IH. induction vs as [|w vs IH]; [discriminate|]. cbn in H. destruct (A z w) eqn:Ew; [|exists w; split; [left|exact Ew]]. destruct (IH H) as (y & Hy & E). exists y. split; [right; exact Hy|exact E]. }
      destruct K as (y & Hy & E). exists y. split; [right; exact Hy|exact E].
    - intros [(x & Hx & E) (y & Hy & E')]. split; [exists x; rewrite <- elem_of_list_In; auto|]. destruct (forallb (A z) vs) eqn:F; [|reflexivity]. rewrite forallb_forall in F. specialize (F y (proj1 (elem_of_list_In _ _) Hy)). congruence.
  Qed.
  Lemma inS_mixed vs : Forall (fun v => v < n) vs -> vs <> [] -> exists r, r < n /\ forall z, z < n -> Nat.b2n (inS vs z) = Nat.b2n (mixed vs z) + if decide (r = z) then 1 else 0.
  Proof.
    intros F Ne. destruct (nodes_ok g root par dep Ht level Hlev Hpow b B vs F) as (V & EV & SV & FV & _ & In & C & P). destruct (tree_ok g root par dep Ht level Hlev Hpow b B vs V FV SV C EV) as (ps & _ & _ & _ & T0).
    destruct vs as [|v0 vs0] eqn:Evs; [congruence|]. rewrite <- Evs in *. assert (Iv : v0 ∈ V) by (apply In; rewrite Evs; left). destruct V as [|r V']; [inversion Iv|]. specialize (T0 r). assert (HrV : r ∈ r :: V') by left.
    rewrite Forall_forall in F, FV. pose proof (FV r HrV) as Hrn. exists r. split; [exact Hrn|]. destruct (P r HrV) as (x0 & y0 & Hx0 & Hy0 & L0). assert (All : forall x, x ∈ vs -> anc r x) by (intros x Hx; apply T0; [reflexivity|apply In; exact Hx]).
    intros z Hz. assert (I1 : mixed vs z = true -> inS vs z = true /\ r <> z).
    { intros M. apply mixed_iff in M as [(x & Hx & Ex) (y & Hy & Ey)]. split.
      - apply inS_iff. exists x, y. split; [exact Hx|]. split; [exact Hy|]. destruct (lcap_exists _ _ _ _ Ht x y (F x Hx) (F y Hy)) as (l & L). apply (on_path_iff x y l z (F x Hx) (F y Hy) Hz L). left. rewrite Ex, Ey. reflexivity.
      - intros <-. pose proof (proj2 (A_anc r y Hrn (F y Hy)) (All y Hy)). congruence. }
    assert (I2 : inS vs z = true -> mixed vs z = true \/ r = z).
    { intros I. apply inS_iff in I as (x & y & Hx & Hy & I). destruct (lcap_exists _ _ _ _ Ht x y (F x Hx) (F y Hy)) as (l & L). pose proof (proj1 (on_path_iff x y l z (F x Hx) (F y Hy) Hz L) I) as [E|E]; [|subst l].
      - left. apply mixed_iff. destruct (A z x) eqn:Ex, (A z y) eqn:Ey; try discriminate; eauto 6.
      - destruct (mixed vs z) eqn:M; [left; reflexivity|right]. assert (Az : forall w, w ∈ vs -> anc z w).
        { intros w Hw. apply A_anc; [exact Hz|exact (F w Hw)|]. destruct (A z w) eqn:Ew; [reflexivity|]. enough (mixed vs z = true) by congruence. apply mixed_iff. split; [exists x; split; [exact Hx|apply A_anc; [exact Hz|exact (F x Hx)|exact (proj1 L)]]|exists w; auto]. }
        apply (anc_antisym _ _ _ _ Ht); [exact Hrn|exact Hz| |].
        + apply (lcap_spec par x y z r L). split; apply All; assumption.
        + apply (lcap_spec par x0 y0 r z L0). split; apply Az; assumption. }
    assert (I3 : r = z -> inS vs z = true).
    { intros <-. apply inS_iff. exists x0, y0. split; [exact Hx0|]. split; [exact Hy0|]. apply (on_path_iff x0 y0 r r (F x0 Hx0) (F y0 Hy0) Hrn L0). right. reflexivity. }
    destruct (inS vs z) eqn:Ei, (mixed vs z) eqn:Em, (decide (r = z)) as [E|E]; cbn; try reflexivity; exfalso.
    - exact (proj2 (I1 eq_refl) E).
    - destruct (I2 eq_refl); congruence.
    - specialize (I3 E). congruence.
    - destruct (I1 eq_refl). congruence.
    - specialize (I3 E). congruence.
  Qed.

  Lemma inS_hull vs : Forall (fun v => v < n) vs -> hull g vs (filter (fun z => inS vs z = true) (seq 0 n)).
  Proof.
    intros F. rewrite Forall_forall in F. assert (El : forall z, z ∈ filter (fun z => inS vs z = true) (seq 0 n) <-> exists x y, x ∈ vs /\ y ∈ vs /\ z ∈ path x y).
    { intros z. rewrite elem_of_list_filter, inS_iff. split; [intros [H _]; exact H|]. intros (x & y & Hx & Hy & H). split; [eauto|]. apply elem_of_seq. pose proof (path_lt x y z (F x Hx) (F y Hy) H). lia. }
    assert (Start : forall u v l, walk g u v l -> u ∈ l) by (intros u v l W; inversion W; left).
    split; [apply NoDup_filter, NoDup_seq|]. split; [|split].
    - intros x Hx. apply El. exists x, x. split; [exact Hx|]. split; [exact Hx|]. exact (Start _ _ _ (proj1 (Hpath x x (F x Hx) (F x Hx)))).
    - intros z z' Hz Hz'. apply El in Hz as (x & y & Hx & Hy & Hz). apply El in Hz' as (x' & y' & Hx' & Hy' & Hz').
      destruct (walk_to g _ _ _ z (proj1 (Hpath x y (F x Hx) (F y Hy))) Hz) as (p1 & W1 & S1). destruct (walk_to g _ _ _ z' (proj1 (Hpath x' y' (F x' Hx') (F y' Hy'))) Hz') as (p3 & W3 & S3).
      pose proof (proj1 (Hpath x x' (F x Hx) (F x' Hx'))) as W2. apply (walk_rev _ _ _ _ Ht) in W1. pose proof (walk_app g _ _ _ _ _ W1 (walk_app g _ _ _ _ _ W2 W3)) as W. eexists. split; [exact W|].
      assert (Tl : forall (l : list nat) w, w ∈ tail l -> w ∈ l) by (intros [|a l] w; [auto|]; cbn; intros; right; assumption).
      intros w Hw. apply El. apply elem_of_app in Hw as [Hw|Hw]; [exists x, y; split_and!; try assumption; apply S1; rewrite elem_of_list_In, in_rev, <- elem_of_list_In; exact Hw|].
      apply Tl, elem_of_app in Hw as [Hw|Hw]; [exists x, x'; auto|]. exists x', y'. split_and!; try assumption. apply S3, Tl. exact Hw.
    - intros W S C z Hz. apply El in Hz as (x & y & Hx & Hy & Hz). destruct (C x y (S x Hx) (S y Hy)) as (p & Wp & Sp). destruct (walk_simple g x y p Wp) as (q & Wq & Nq & Sq).
      destruct (Hpath x y (F x Hx) (F y Hy)) as [W0 N0]. rewrite (tree_unique g Tr x y _ q W0 N0 Wq Nq) in Hz. apply Sp, Sq. exact Hz.
  Qed.
  Lemma hull_same vs vs' S : (forall x, x ∈ vs <-> x ∈ vs') -> hull g vs S -> hull g vs' S.
  Proof. intros E (N & I & C & M). split; [exact N|]. split; [intros x Hx; apply I, E, Hx|]. split; [exact C|]. intros W HW. apply M. intros x Hx. apply HW, E, Hx. Qed.

  Lemma steiner_ok vs : Forall (fun v => v < n) vs -> exists S, hull g vs S /\ steiner b vs = Ok (length S).
  Proof.
    intros F. unfold steiner. destruct (sort_ok g par dep level Hlev Hpow b B vs F) as (l & -> & P & S). cbn [mbind res_bind]. assert (Fl : Forall (fun v => v < n) l) by (rewrite P; exact F).
    exists (filter (fun z => inS l z = true) (seq 0 n)). split; [apply (hull_same l); [intros x; rewrite P; reflexivity|apply inS_hull, Fl]|]. rewrite fs_filter. destruct (last l) as [u|] eqn:L.
    - assert (Hu : u ∈ l) by (apply last_Some_elem_of; exact L). assert (Hun : u < n) by (rewrite Forall_forall in Fl; exact (Fl u Hu)). unfold around. destruct (around_sum l u 0 Hun Fl) as (w & ->). cbn [mbind res_bind snd]. f_equal.
      destruct (inS_mixed l Fl) as (r & Hrn & E); [intros ->; inversion Hu|]. rewrite (fs_ext n _ _ E), fs_add, fs_point, decide_True by exact Hrn.
      rewrite (fs_ext n _ (fun z => Nat.b2n (mixed l z) + Nat.b2n (mixed l z))) by (intros z Hz; rewrite (tr_mixed l u z S L); lia). rewrite fs_add. f_equal. set (k := fs n (fun z => Nat.b2n (mixed l z))). replace (0 + (k + k)) with (k * 2) by lia. apply Nat.div_mul. lia.
    - apply last_None in L as ->. symmetry. rewrite (fs_ext n _ (fun _ => 0)) by reflexivity. rewrite fs_0. reflexivity.
  Qed.
End Proof.

(** A vertex out of range. *)
Lemma insert_perm b x l : tin_insert b x l = Panic \/ exists l', tin_insert b x l = Ok l' /\ l' ≡ₚ x :: l.
Proof.
  induction l as [|y l IH]; [right; exists [x]; split; reflexivity|]. cbn [tin_insert]. unfold vget. destruct (bl_tin b !! x) as [tx|]; [|left; reflexivity]. destruct (bl_tin b !! y) as [ty|]; [|left; reflexivity]. cbn [mbind res_bind].
  destruct (tx <=? ty); [right; exists (x :: y :: l); split; reflexivity|]. destruct IH as [->|(l' & -> & P)]; [left; reflexivity|]. right. exists (y :: l'). split; [reflexivity|]. rewrite P. apply Permutation_swap.
Qed.
Lemma sort_perm b vs : tin_sort b vs = Panic \/ exists l, tin_sort b vs = Ok l /\ l ≡ₚ vs.
Proof.
  unfold tin_sort. assert (K : forall vs l0, rfor vs (tin_insert b) l0 = Panic \/ exists l, rfor vs (tin_insert b) l0 = Ok l /\ l ≡ₚ vs ++ l0).
  { clear vs. induction vs as [|v vs IH]; intros l0; [right; exists l0; split; reflexivity|]. cbn [rfor]. destruct (insert_perm b v l0) as [->|(l1 & -> & P1)]; [left; reflexivity|]. cbn [mbind res_bind].
    destruct (IH l1) as [->|(l & -> & P)]; [left; reflexivity|]. right. exists l. split; [reflexivity|]. rewrite P, P1. symmetry. apply Permutation_middle. }
  destruct (K vs []) as [E|(l & E & P)]; [left; exact E|]. right. exists l. split; [exact E|]. rewrite app_nil_r in P. exact P.
Qed.
Lemma around_panic b n vs : (forall u v, n <= u \/ n <= v -> bl_dis b u v = Panic) -> (forall u v, u < n -> v < n -> exists d, bl_dis b u v = Ok d) ->
  ~ Forall (fun v => v < n) vs -> forall u d, rfor vs (fun v s => e ← bl_dis b s.1 v; Ok (v, s.2 + e)) (u, d) = Panic.
Proof.
  intros D1 D2. induction vs as [|v vs IH]; intros H u d; [exfalso; apply H; constructor|]. cbn [rfor fst snd]. destruct (le_lt_dec n v) as [Hv|Hv]; [rewrite D1 by auto; reflexivity|]. destruct (le_lt_dec n u) as [Hu|Hu]; [rewrite D1 by auto; reflexivity|].
  destruct (D2 u v Hu Hv) as (e & ->). cbn [mbind res_bind]. apply IH. intros F. apply H. constructor; assumption.
Qed.
