From stdpp Require Import relations.
From Verif Require Import Prelude IntModel SccModel SccSpec SccProof SccProps SatModel SatProof SccRelModel SccRelSpec.

Lemma lookup_snoc_Some {A} (l : list A) x i y : (l ++ [x]) !! i = Some y -> i < length l /\ l !! i = Some y \/ i = length l /\ x = y.
Proof.
  intros H. apply lookup_app_Some in H as [H|[H1 H2]]; [left; split; [apply lookup_lt_Some in H; exact H|exact H]|].
  apply list_lookup_singleton_Some in H2 as [H2 ->]. right. split; [lia|reflexivity].
Qed.
(** ** Counting components *)
Definition outcome (g : list (list nat)) (cnt : nat) (col : list nat) : Prop :=
  scc g = Ok (cnt, col) /\ length col = length g /\ (forall u k, col !! u = Some k -> k < cnt) /\ (forall k, k < cnt -> exists u, col !! u = Some k) /\
  (forall u v a b, col !! u = Some a -> col !! v = Some b -> (a = b <-> mutual g u v)).
Lemma outcome_ex g : valid g -> exists cnt col, outcome g cnt col.
Proof. intros [H1 H2]. destruct (C25_scc g H1 H2) as (cnt & col & H). exists cnt, col. exact H. Qed.
Lemma mutual_refl g u : mutual g u u.
Proof. split; apply rtc_refl. Qed.
Lemma mutual_sym g u v : mutual g u v -> mutual g v u.
Proof. intros [A B]; split; assumption. Qed.
Lemma mutual_trans g u v w : mutual g u v -> mutual g v w -> mutual g u w.
Proof. intros [A B] [C D]. split; eapply rtc_transitive; eassumption. Qed.

Section Count.
  Context (g : list (list nat)) (cnt : nat) (col : list nat) (O : outcome g cnt col).
  Lemma colour u : u < length g -> exists k, col !! u = Some k /\ k < cnt.
  Proof.
    destruct O as (_ & L & B & _). intros Hu. destruct (lookup_lt_is_Some_2 col u) as [k Hk]; [lia|]. exists k. split; [exact Hk|]. exact (B u k Hk).
  Qed.
  Lemma mutual_dec u v : u < length g -> v < length g -> mutual g u v \/ ~ mutual g u v.
  Proof.
    intros Hu Hv. destruct (colour u Hu) as (a & Ha & _), (colour v Hv) as (b & Hb & _). destruct O as (_ & _ & _ & _ & M). rewrite <- (M u v a b Ha Hb). destruct (decide (a = b)); auto.
  Qed.
  Lemma pack us : (forall u, u ∈ us -> u < length g) -> (forall i j u v, us !! i = Some u -> us !! j = Some v -> mutual g u v -> i = j) -> length us <= cnt.
  Proof.
    intros Hlt Hap. destruct O as (_ & L & B & _ & M). set (c := fun u => default 0 (col !! u)).
    assert (ND : NoDup (map c us)).
    { apply NoDup_alt. intros i j x Hi Hj. apply list_lookup_fmap_Some in Hi as (u & Hu & ->). apply list_lookup_fmap_Some in Hj as (v & Hv & E).
      apply (Hap i j u v Hu Hv). destruct (colour u) as (a & Ha & _); [apply Hlt; eapply elem_of_list_lookup_2; eauto|]. destruct (colour v) as (b & Hb & _); [apply Hlt; eapply elem_of_list_lookup_2; eauto|].
      unfold c in E. rewrite Ha, Hb in E. cbn in E. apply (M u v a b Ha Hb). exact E. }
    rewrite <- (map_length c us), <- (seq_length cnt 0). apply NoDup_ListNoDup in ND. apply (List.NoDup_incl_length ND). intros x Hx. apply elem_of_list_In, elem_of_list_fmap in Hx as (u & -> & Hu).
    destruct (colour u (Hlt u Hu)) as (a & Ha & Hc). unfold c. rewrite Ha. apply in_seq. cbn. lia.
  Qed.
  Lemma cover us : (forall v, v < length g -> exists u, u ∈ us /\ u < length g /\ mutual g u v) -> cnt <= length us.
  Proof.
    intros Hc. destruct O as (_ & L & _ & Sj & M). set (c := fun u => default 0 (col !! u)).
    rewrite <- (map_length c us), <- (seq_length cnt 0). apply List.NoDup_incl_length; [apply seq_NoDup|]. intros k Hk. apply in_seq in Hk. destruct (Sj k ltac:(lia)) as [v Hv].
    destruct (Hc v) as (u & Hu & Hlu & Hm); [apply lookup_lt_Some in Hv; lia|]. apply elem_of_list_In, elem_of_list_fmap. exists u. split; [|exact Hu].
    destruct (colour u Hlu) as (a & Ha & _). unfold c. rewrite Ha. cbn. symmetry. apply (M u v a k Ha Hv). exact Hm.
  Qed.
  Lemma reps : exists rs, length rs = cnt /\ (forall u, u ∈ rs -> u < length g) /\ (forall i j u v, rs !! i = Some u -> rs !! j = Some v -> mutual g u v -> i = j) /\
    (forall v, v < length g -> exists u, u ∈ rs /\ mutual g u v).
  Proof.
    destruct O as (_ & L & B & Sj & M).
    assert (H : forall k, k <= cnt -> exists rs, length rs = k /\ forall i u, rs !! i = Some u -> col !! u = Some i).
    { induction k as [|k IH]; intros Hk; [exists []; split; [reflexivity|intros i u H; discriminate H]|]. destruct IH as (rs & Lr & Hr); [lia|]. destruct (Sj k ltac:(lia)) as [v Hv].
      exists (rs ++ [v]). rewrite app_length, Lr. cbn. split; [lia|]. intros i u Hi. apply lookup_snoc_Some in Hi as [[_ Hi]|[-> <-]]; [auto|]. rewrite Lr. exact Hv. }
    destruct (H cnt ltac:(lia)) as (rs & Lr & Hr). exists rs. split; [exact Lr|]. split_and!.
    - intros u Hu. apply elem_of_list_lookup in Hu as [i Hi]. apply Hr, lookup_lt_Some in Hi. lia.
    - intros i j u v Hi Hj Hm. apply (M u v i j (Hr i u Hi) (Hr j v Hj)). exact Hm.
    - intros v Hv. destruct (colour v Hv) as (k & Hk & Hlt). destruct (lookup_lt_is_Some_2 rs k) as [u Hu]; [lia|]. exists u. split; [eapply elem_of_list_lookup_2; eauto|].
      apply (M u v k k (Hr k u Hu) Hk). reflexivity.
  Qed.
End Count.
Lemma components_count g cnt col k : outcome g cnt col -> (components g k <-> k = cnt).
Proof.
  intros O. split.
  - intros (rs & Lr & H1 & H2 & H3). pose proof (pack g cnt col O rs H1 H2). enough (cnt <= length rs) by lia. apply (cover g cnt col O). intros v Hv. destruct (H3 v Hv) as (u & Hu & Hm). eauto.
  - intros ->. destruct (reps g cnt col O) as (rs & H). exists rs. exact H.
Qed.
(** A map of vertices keeping "reach each other" and hitting every component. *)
Lemma count_le f g h cg colg ch colh : outcome g cg colg -> outcome h ch colh -> (forall u, u < length g -> f u < length h) ->
  (forall v, v < length h -> exists u, u < length g /\ mutual h (f u) v) -> (forall u v, u < length g -> v < length g -> mutual g u v -> mutual h (f u) (f v)) -> ch <= cg.
Proof.
  intros Og Oh Hf Hs Hm. destruct (reps g cg colg Og) as (rs & <- & H1 & _ & H3). rewrite <- (map_length f rs). apply (cover h ch colh Oh). intros v Hv. destruct (Hs v Hv) as (u & Hu & Hm1).
  destruct (H3 u Hu) as (r & Hr & Hm2). exists (f r). split; [apply elem_of_list_fmap; eauto|]. split; [apply Hf, H1; exact Hr|]. eapply mutual_trans; [apply Hm; [apply H1; exact Hr|exact Hu|exact Hm2]|exact Hm1].
Qed.
Lemma same_of_mutual f g h cg colg ch colh : outcome g cg colg -> outcome h ch colh -> (forall u v, u < length g -> v < length g -> mutual g u v <-> mutual h (f u) (f v)) -> same_partition f colg colh.
Proof.
  intros (_ & Lg & _ & _ & Mg) (_ & _ & _ & _ & Mh) H u v a b a' b' Ha Hb Ha' Hb'. rewrite (Mg u v a b Ha Hb), (Mh (f u) (f v) a' b' Ha' Hb'). apply H; [apply lookup_lt_Some in Ha|apply lookup_lt_Some in Hb]; lia.
Qed.

(** ** Related graphs *)
Lemma reach_map g h f : (forall u v, edge g u v -> edge h (f u) (f v)) -> forall u v, reach g u v -> reach h (f u) (f v).
Proof. intros H u v R. induction R as [|u v w E _ IH]; [apply rtc_refl|]. eapply rtc_l; [apply H; exact E|exact IH]. Qed.
Lemma reach_turn g h : (forall u v, edge h u v <-> edge g v u) -> forall u v, reach h u v <-> reach g v u.
Proof.
  intros H. assert (G : forall u v, reach g v u -> reach h u v). { intros u v R. induction R as [|u' v' w E _ IH]; [apply rtc_refl|]. eapply rtc_r; [exact IH|]. apply H. exact E. }
  intros u v. split; [|apply G]. intros R. induction R as [|u' v' w E _ IH]; [apply rtc_refl|]. eapply rtc_r; [exact IH|]. apply H. exact E.
Qed.
Lemma edge_lt g u v : edge g u v -> u < length g.
Proof. intros (es & H & _). apply lookup_lt_Some in H. exact H. Qed.
(** g sits in h as the vertices f u, closed under edges of h. *)
Lemma reach_embed g h f n : (forall u v, u < n -> v < n -> f u = f v -> u = v) -> (forall u v, edge g u v -> v < n) ->
  (forall u w, u < n -> edge h (f u) w <-> exists v, w = f v /\ edge g u v) -> forall u v, u < n -> v < n -> (reach h (f u) (f v) <-> reach g u v).
Proof.
  intros Hinj Hlt He. assert (G : forall x w, reach h x w -> forall u, u < n -> x = f u -> exists v, w = f v /\ reach g u v /\ (v < n)).
  { intros x w R. induction R as [x|x y w E _ IH]; intros u Hu ->; [exists u; split; [reflexivity|]; split; [apply rtc_refl|exact Hu]|].
    apply (He u y Hu) in E as (v & -> & E). destruct (IH v (Hlt _ _ E) eq_refl) as (v' & -> & R' & Hv'). exists v'. split; [reflexivity|]. split; [eapply rtc_l; eauto|exact Hv']. }
  intros u v Hu Hv. split.
  - intros R. destruct (G _ _ R u Hu eq_refl) as (v' & E & R' & Hv'). apply Hinj in E; [|assumption..]. subst. exact R'.
  - intros R. revert Hu. induction R as [|u y w E _ IH]; intros Hu; [apply rtc_refl|]. eapply rtc_l; [|apply IH; [exact Hv|apply (Hlt _ _ E)]]. apply He; [exact Hu|]. eauto.
Qed.
Lemma inj_surj n (f : nat -> nat) : (forall u, u < n -> f u < n) -> (forall u v, u < n -> v < n -> f u = f v -> u = v) -> forall w, w < n -> exists u, u < n /\ f u = w.
Proof.
  intros Hf Hinj w Hw. assert (ND : List.NoDup (map f (seq 0 n))).
  { apply NoDup_ListNoDup, NoDup_alt. intros i j x Hi Hj. apply list_lookup_fmap_Some in Hi as (a & Ha & ->). apply list_lookup_fmap_Some in Hj as (b & Hb & E). apply lookup_seq in Ha as [-> Ha]. apply lookup_seq in Hb as [-> Hb]. cbn in E. apply Hinj in E; lia. }
  assert (I : List.incl (seq 0 n) (map f (seq 0 n))).
  { apply List.NoDup_length_incl; [exact ND|rewrite map_length; lia|]. intros x Hx. apply in_map_iff in Hx as (u & <- & Hu). apply in_seq in Hu. apply in_seq. specialize (Hf u). lia. }
  specialize (I w ltac:(apply in_seq; lia)). apply in_map_iff in I as (u & E & Hu). apply in_seq in Hu. exists u. split; [lia|exact E].
Qed.
Lemma renaming_valid f g h : renaming f g h -> valid g -> valid h -> forall u v, u < length g -> v < length g -> (reach h (f u) (f v) <-> reach g u v).
Proof.
  intros (L & Hf & Hinj & He) [Vg _] [Vh _]. apply reach_embed; [exact Hinj|exact Vg|]. intros u w Hu. split.
  - intros E. pose proof (Vh _ _ E) as Hw. rewrite L in Hw. destruct (inj_surj (length g) f Hf Hinj w Hw) as (v & Hv & <-). exists v. split; [reflexivity|]. apply He; assumption.
  - intros (v & -> & E). apply He; [exact Hu|apply (Vg _ _ E)|exact E].
Qed.

(** One more edge. *)
Lemma reach_add g h x y : (forall u v, edge h u v <-> edge g u v \/ (u = x /\ v = y)) -> forall u v, reach h u v <-> reach g u v \/ reach g u x /\ reach g y v.
Proof.
  intros H. assert (S : forall u v, reach g u v -> reach h u v) by (apply (reach_map g h (fun z => z)); intros u v E; apply H; auto). intros u v. split.
  - intros R. induction R as [u|u w v E _ IH]; [left; apply rtc_refl|]. apply H in E as [E|[-> ->]].
    + destruct IH as [IH|[A B]]; [left|right; split; [|exact B]]; eapply rtc_l; eauto.
    + right. split; [apply rtc_refl|]. destruct IH as [IH|[_ IH]]; exact IH.
  - intros [R|[A B]]; [auto|]. eapply rtc_transitive; [apply S; exact A|]. eapply rtc_l; [apply H; right; split; reflexivity|]. apply S. exact B.
Qed.
Lemma add_edge_count g h x y cg colg ch colh : outcome g cg colg -> outcome h ch colh -> length h = length g -> x < length g -> y < length g ->
  (forall u v, edge h u v <-> edge g u v \/ (u = x /\ v = y)) -> (ch < cg <-> reach g y x /\ ~ reach g x y).
Proof.
  intros Og Oh L Hx Hy He. pose proof (reach_add g h x y He) as R.
  assert (S : forall u v, mutual g u v -> mutual h u v) by (intros u v [A B]; split; apply R; auto). split.
  - intros Hlt. assert (G : ~ (forall u v, mutual h u v -> mutual g u v)).
    { intros K. enough (cg <= ch) by lia. apply (count_le (fun z => z) h g ch colh cg colg Oh Og); [lia|intros v Hv; exists v; split; [lia|apply mutual_refl]|auto]. }
    destruct (mutual_dec h ch colh Oh x y ltac:(lia) ltac:(lia)) as [[_ M]|M].
    + apply R in M as [M|[M _]]; (split; [exact M|]); intros M1; apply G; intros u v [A B]; apply R in A; apply R in B;
        (split; [destruct A as [A|[A1 A2]]; [exact A|]|destruct B as [B|[B1 B2]]; [exact B|]]); eapply rtc_transitive; try eassumption; eapply rtc_transitive; eassumption.
    + exfalso. assert (N : ~ reach g y x) by (intros N; apply M; split; apply R; [right; split; apply rtc_refl|left; exact N]).
      apply G. intros u v [A B]. apply R in A. apply R in B. destruct A as [A|[A1 A2]], B as [B|[B1 B2]]; [split; assumption| | |]; exfalso; apply N.
      * eapply rtc_transitive; [exact B2|]. eapply rtc_transitive; [exact A|exact B1].
      * eapply rtc_transitive; [exact A2|]. eapply rtc_transitive; [exact B|exact A1].
      * eapply rtc_transitive; [exact A2|exact B1].
  - intros [A B]. destruct (reps h ch colh Oh) as (rs & Lr & H1 & H2 & H3). destruct (H3 x ltac:(lia)) as (w & Hw & Mw).
    assert (Mxy : mutual h x y) by (split; apply R; [right; split; apply rtc_refl|left; exact A]).
    assert (G : forall z, z < length g -> mutual h x z -> ~ mutual g w z -> ch < cg).
    { intros z Hz Mz Nz. enough (length (rs ++ [z]) <= cg) by (rewrite app_length in *; cbn in *; lia). apply (pack g cg colg Og).
      - intros u Hu. apply elem_of_app in Hu as [Hu|Hu]; [specialize (H1 u Hu); lia|]. apply elem_of_list_singleton in Hu as ->. exact Hz.
      - intros i j u v Hi Hj M. apply lookup_snoc_Some in Hi as [[Hi' Hi]|[-> <-]]; apply lookup_snoc_Some in Hj as [[Hj' Hj]|[-> <-]]; [apply (H2 i j u v Hi Hj), S, M| | |reflexivity]; exfalso; apply Nz.
        + apply elem_of_list_lookup in Hw as [k Hk]. assert (i = k) as -> by (apply (H2 i k u w Hi Hk); eapply mutual_trans; [apply S; exact M|]; eapply mutual_trans; [apply mutual_sym; exact Mz|apply mutual_sym; exact Mw]).
          rewrite Hk in Hi. injection Hi as ->. exact M.
        + apply elem_of_list_lookup in Hw as [k Hk]. assert (j = k) as -> by (apply (H2 j k v w Hj Hk); eapply mutual_trans; [apply S; apply mutual_sym; exact M|]; eapply mutual_trans; [apply mutual_sym; exact Mz|apply mutual_sym; exact Mw]).
          rewrite Hk in Hj. injection Hj as ->. apply mutual_sym. exact M. }
    destruct (mutual_dec g cg colg Og w x) as [M|M]; [specialize (H1 w Hw); lia|exact Hx| |exact (G x Hx (mutual_refl _ _) M)].
    apply (G y Hy Mxy). intros M2. apply B. eapply rtc_transitive; [apply M|apply M2].
Qed.

(** ** Two graphs side by side *)
Lemma beside_left g h u w : u < length g -> (edge (beside g h) u w <-> exists v, w = v /\ edge g u v).
Proof.
  intros Hu. unfold edge, beside. rewrite lookup_app_l by exact Hu. split; [intros H; exists w; auto|]. intros (v & -> & H). exact H.
Qed.
Lemma beside_right g h u w : u < length h -> (edge (beside g h) (length g + u) w <-> exists v, w = length g + v /\ edge h u v).
Proof.
  intros Hu. unfold edge, beside. rewrite lookup_app_r by lia. replace (length g + u - length g) with u by lia. split.
  - intros (es & H & Hw). apply list_lookup_fmap_Some in H as (es' & H & ->). apply elem_of_list_fmap in Hw as (v & -> & Hv). eauto.
  - intros (v & -> & es & H & Hv). exists (map (fun v => length g + v) es). split; [rewrite list_lookup_fmap, H; reflexivity|]. apply elem_of_list_fmap. eauto.
Qed.
Lemma beside_length g h : length (beside g h) = length g + length h.
Proof. unfold beside. rewrite app_length, map_length. reflexivity. Qed.
Lemma beside_edges g h : valid g -> valid h -> forall u v, edge (beside g h) u v -> v < length (beside g h).
Proof.
  intros [Vg _] [Vh _] u v E. pose proof (edge_lt _ _ _ E) as Hu. rewrite beside_length in *. destruct (decide (u < length g)) as [H|H].
  - apply (beside_left g h u v H) in E as (w & -> & E). apply Vg in E. lia.
  - replace u with (length g + (u - length g)) in E by lia. apply beside_right in E as (w & -> & E); [|lia]. apply Vh in E. lia.
Qed.
Lemma beside_mutual_left g h u v : valid g -> u < length g -> v < length g -> (mutual g u v <-> mutual (beside g h) u v).
Proof.
  intros [Vg _] Hu Hv. unfold mutual. pose proof (fun a b => reach_embed g (beside g h) (fun z => z) (length g) ltac:(auto) Vg (beside_left g h) a b) as R.
  rewrite (R u v Hu Hv), (R v u Hv Hu). reflexivity.
Qed.
Lemma beside_mutual_right g h u v : valid h -> u < length h -> v < length h -> (mutual h u v <-> mutual (beside g h) (length g + u) (length g + v)).
Proof.
  intros [Vh _] Hu Hv. unfold mutual. pose proof (fun a b => reach_embed h (beside g h) (fun z => length g + z) (length h) ltac:(cbn; intros; lia) Vh (beside_right g h) a b) as R.
  rewrite (R u v Hu Hv), (R v u Hv Hu). reflexivity.
Qed.
Lemma beside_cross g h u v : valid g -> u < length g -> reach (beside g h) u v -> v < length g.
Proof.
  intros [Vg _] Hu R. induction R as [|u w v E _ IH]; [exact Hu|]. apply IH. apply (beside_left g h u w Hu) in E as (x & -> & E). exact (Vg _ _ E).
Qed.
Lemma beside_count g h cg colg ch colh cu colu : valid g -> valid h -> outcome g cg colg -> outcome h ch colh -> outcome (beside g h) cu colu -> cu = cg + ch.
Proof.
  intros Vg Vh Og Oh Ou. symmetry. apply (components_count _ _ _ _ Ou). destruct (reps g cg colg Og) as (rg & <- & G1 & G2 & G3). destruct (reps h ch colh Oh) as (rh & <- & H1 & H2 & H3).
  exists (rg ++ map (fun z => length g + z) rh). rewrite app_length, map_length. split; [reflexivity|]. rewrite beside_length. split_and!.
  - intros u Hu. apply elem_of_app in Hu as [Hu|Hu]; [specialize (G1 u Hu); lia|]. apply elem_of_list_fmap in Hu as (z & -> & Hz). specialize (H1 z Hz). lia.
  - assert (N : forall u v, u ∈ rg -> ~ mutual (beside g h) u (length g + v)). { intros u v Hu [A _]. apply (beside_cross g h) in A; [lia|exact Vg|auto]. }
    intros i j u v Hi Hj M. apply lookup_app_Some in Hi as [Hi|[Hli Hi]]; apply lookup_app_Some in Hj as [Hj|[Hlj Hj]].
    + apply (G2 i j u v Hi Hj). apply (beside_mutual_left g h u v Vg); [apply G1; eapply elem_of_list_lookup_2; eauto|apply G1; eapply elem_of_list_lookup_2; eauto|exact M].
    + apply list_lookup_fmap_Some in Hj as (z & Hz & ->). exfalso. apply (N u z); [eapply elem_of_list_lookup_2; eauto|exact M].
    + apply list_lookup_fmap_Some in Hi as (z & Hz & ->). exfalso. apply (N v z); [eapply elem_of_list_lookup_2; eauto|apply mutual_sym; exact M].
    + apply list_lookup_fmap_Some in Hi as (z & Hz & ->). apply list_lookup_fmap_Some in Hj as (z' & Hz' & ->). enough (i - length rg = j - length rg) by lia.
      apply (H2 _ _ z z' Hz Hz'). apply (beside_mutual_right g h z z' Vh); [apply H1; eapply elem_of_list_lookup_2; eauto|apply H1; eapply elem_of_list_lookup_2; eauto|exact M].
  - intros v Hv. destruct (decide (v < length g)) as [Hl|Hl].
    + destruct (G3 v Hl) as (u & Hu & M). exists u. split; [apply elem_of_app; auto|]. apply (beside_mutual_left g h u v Vg); auto.
    + destruct (H3 (v - length g) ltac:(lia)) as (u & Hu & M). exists (length g + u). split; [apply elem_of_app; right; apply elem_of_list_fmap; eauto|].
      replace v with (length g + (v - length g)) by lia. apply (beside_mutual_right g h); [exact Vh|auto|lia|exact M].
Qed.

(** ** Edges to smaller vertices only *)
Lemma insert_edge {A} (l : list A) n x y : length l < n -> <[length l := x]> (l ++ replicate (n - length l) y) = (l ++ [x]) ++ replicate (n - S (length l)) y.
Proof.
  intros H. replace (n - length l) with (S (n - S (length l))) by lia. cbn [replicate]. replace (length l) with (length l + 0) at 1 by lia. rewrite insert_app_r. cbn. rewrite <- app_assoc. reflexivity.
Qed.
Definition zs (i : nat) : list Z := map Z.of_nat (seq 0 i).
Lemma zs_length i : length (zs i) = i.
Proof. unfold zs. rewrite map_length, seq_length. reflexivity. Qed.
Lemma zs_S i : zs (S i) = zs i ++ [Z.of_nat i].
Proof. unfold zs. rewrite seq_S, map_app. reflexivity. Qed.
Lemma zs_lookup i v : v < i -> zs i !! v = Some (Z.of_nat v).
Proof. intros H. unfold zs. rewrite list_lookup_fmap, lookup_seq_lt by exact H. reflexivity. Qed.
Definition at_vertex (n i : nat) : tj :=
  TJ (Z.of_nat i) (replicate n false) (zs i ++ replicate (n - i) 0%Z) (zs i ++ replicate (n - i) (-1)%Z) [] (map (fun k => [k]) (seq 0 i)).
Lemma down_dfs g u : let n := length g in (Z.of_nat n <= 2 ^ 31 - 1)%Z -> u < n -> (forall v, edge g u v -> v <= u) -> tdfs (S n) g u (at_vertex n u) = Ok (at_vertex n (S u)).
Proof.
  intros n Hn Hu He. cbn [tdfs]. destruct (lookup_lt_is_Some_2 g u Hu) as [es Hes].
  set (s1 := TJ (Z.of_nat (S u)) (<[u := true]> (replicate n false)) (zs (S u) ++ replicate (n - S u) 0%Z) (zs (S u) ++ replicate (n - S u) (-1)%Z) [u] (map (fun k => [k]) (seq 0 u))).
  assert (E1 : tj_enter u (at_vertex n u) = Ok s1).
  { unfold tj_enter, at_vertex. cbn [tj_pos tj_ons tj_low tj_ord tj_stk tj_comp].
    rewrite !vset_ok by (rewrite ?app_length, ?zs_length, ?replicate_length; lia). cbn [mbind res_bind].
    assert (iadd i32 (Z.of_nat u) 1 = Ok (Z.of_nat (S u))) as ->. { unfold iadd. rewrite chk_ok; [f_equal; lia|]. unfold in_ty, it_min, it_max, i32. cbn [it_signed it_bits]. change (2 ^ (32 - 1))%Z with (2 ^ 31)%Z. lia. }
    cbn [mbind res_bind]. unfold s1. rewrite !zs_S.
    pose proof (insert_edge (zs u) n (Z.of_nat u) 0%Z) as A. pose proof (insert_edge (zs u) n (Z.of_nat u) (-1)%Z) as B. rewrite zs_length in A, B. rewrite A, B by exact Hu. reflexivity. }
  rewrite E1. cbn [mbind res_bind]. rewrite (vget_ok g u es Hes). cbn [mbind res_bind].
  assert (Lz : forall v d, v <= u -> (zs (S u) ++ replicate (n - S u) d) !! v = Some (Z.of_nat v)) by (intros v d Hv; rewrite lookup_app_l by (rewrite zs_length; lia); apply zs_lookup; lia).
  assert (E2 : rfor es (edge_body (tdfs n g) u) s1 = Ok s1).
  { assert (Hes' : forall v, v ∈ es -> v <= u) by (intros v Hv; apply He; exists es; auto). clear Hes. induction es as [|v es IH]; [reflexivity|]. cbn [rfor]. pose proof (Hes' v ltac:(left)) as Hv.
    assert (edge_body (tdfs n g) u v s1 = Ok s1) as ->; [|cbn [mbind res_bind]; apply IH; intros w Hw; apply Hes'; right; exact Hw].
    unfold edge_body, s1. cbn [tj_pos tj_ons tj_low tj_ord tj_stk tj_comp]. rewrite (vget_ok _ _ _ (Lz v _ Hv)). cbn [mbind res_bind]. rewrite (proj2 (Z.eqb_neq _ _)) by lia. cbn [mbind res_bind tj_ons tj_low].
    destruct (decide (v = u)) as [->|Hne].
    - rewrite (vget_ok _ _ true) by (apply list_lookup_insert; rewrite replicate_length; lia). cbn [mbind res_bind]. rewrite (vget_ok _ _ _ (Lz u _ (le_n u))). cbn [mbind res_bind].
      rewrite vset_ok by (rewrite app_length, zs_length; lia). cbn [mbind res_bind tj_pos tj_ord tj_stk tj_comp]. rewrite Z.min_id, (list_insert_id (zs (S u) ++ _)) by (apply Lz; lia). reflexivity.
    - rewrite (vget_ok _ _ false) by (rewrite list_lookup_insert_ne by auto; apply lookup_replicate_2; lia). reflexivity. }
  rewrite E2. cbn [mbind res_bind]. unfold tj_leave, s1. cbn [tj_pos tj_ons tj_low tj_ord tj_stk tj_comp]. rewrite !(vget_ok _ _ _ (Lz u _ (le_n u))). cbn [mbind res_bind]. rewrite Z.eqb_refl.
  cbn [pop_comp]. rewrite vset_ok by (rewrite insert_length, replicate_length; lia). cbn [mbind res_bind]. rewrite Nat.eqb_refl. cbn [mbind res_bind app].
  unfold at_vertex. rewrite list_insert_insert, list_insert_id by (apply lookup_replicate_2; lia). rewrite seq_S, map_app. reflexivity.
Qed.
Lemma down_scc g : (Z.of_nat (length g) <= 2 ^ 31 - 1)%Z -> (forall u v, edge g u v -> v <= u) -> scc g = Ok (length g, seq 0 (length g)).
Proof.
  intros Hn He. unfold scc. set (n := length g).
  destruct (rfor_range_inv (fun i st => st = at_vertex n i) 0 n (fun i st => o ← vget (tj_ord st) i; if (o =? -1)%Z then tdfs (S n) g i st else Ok st) (tj_new n)) as (st & E & ->); [lia| | |].
  - unfold at_vertex, tj_new. cbn [zs seq map app]. rewrite Nat.sub_0_r. reflexivity.
  - intros i st Hi ->. exists (at_vertex n (S i)). split; [|f_equal; lia]. assert (tj_ord (at_vertex n i) !! i = Some (-1)%Z) as H.
    { cbn [at_vertex tj_ord]. rewrite lookup_app_r by (rewrite zs_length; lia). apply lookup_replicate_2. rewrite zs_length. lia. }
    rewrite (vget_ok _ _ _ H). cbn [mbind res_bind]. rewrite Z.eqb_refl. apply down_dfs; [exact Hn|lia|intros v; apply He].
  - change (seq 0 (n - 0)) with (range 0 n) in E. rewrite E. cbn [mbind res_bind]. cbn [at_vertex tj_comp]. unfold range. rewrite map_length, seq_length, Nat.sub_0_r.
    assert (Z : forall m a, zip (seq a m) (map (fun k => [k]) (seq a m)) = map (fun k => (k, [k])) (seq a m)) by (induction m as [|m IH]; intros a; [reflexivity|cbn; rewrite IH; reflexivity]).
    rewrite Z. assert (C : forall m, m <= n -> rfor (map (fun k => (k, [k])) (seq 0 m)) (fun ic color => rfor ic.2 (fun x color => vset color x ic.1) color) (replicate n 0) = Ok (seq 0 m ++ replicate (n - m) 0)).
    { induction m as [|m IH]; intros Hm; [cbn; rewrite Nat.sub_0_r; reflexivity|]. rewrite seq_S, map_app, rfor_app, IH by lia. cbn [mbind res_bind map rfor fst snd Nat.add].
      rewrite vset_ok by (rewrite app_length, seq_length, replicate_length; lia). cbn [mbind res_bind]. pose proof (insert_edge (seq 0 m) n m 0) as A. rewrite seq_length in A. rewrite A by lia. reflexivity. }
    rewrite C by lia. cbn [mbind res_bind]. rewrite Nat.sub_diag, app_nil_r. reflexivity.
Qed.

(** ** The graph of the components *)
Lemma condense_ok g : valid g -> exists cnt col r, scc g = Ok (cnt, col) /\ condense g = Ok r /\ length r = cnt /\
  (forall a b, edge r a b <-> a <> b /\ exists u v, edge g u v /\ col !! u = Some a /\ col !! v = Some b) /\ forall a b, edge r a b -> b <= a.
Proof.
  intros V. destruct (outcome_ex g V) as (cnt & col & O). destruct V as [V1 V2]. destruct (C26_reverse_topological g V1 V2) as (cnt' & col' & E' & T). exists cnt, col. pose proof O as (E & L & B & _).
  rewrite E' in E. injection E as -> ->. unfold condense. rewrite E'. cbn [mbind res_bind].
  destruct (rfor_range_inv (fun k r => length r = cnt /\ forall a b, edge r a b <-> a <> b /\ exists u v, u < k /\ edge g u v /\ col !! u = Some a /\ col !! v = Some b) 0 (length g)
    (fun u r => es ← vget g u; rfor es (fun v r => a ← vget col u; b ← vget col v; if a =? b then Ok r else g_push r a b) r) (replicate cnt [])) as (r & Er & Lr & Hr); [lia| | |].
  - split; [apply replicate_length|]. intros a b. split; [intros (es & H & Hb); apply lookup_replicate in H as [-> _]; inversion Hb|intros (_ & u & v & H & _); lia].
  - intros u r Hu [Lr Hr]. destruct (lookup_lt_is_Some_2 g u) as [es Hes]; [lia|]. rewrite (vget_ok _ _ _ Hes). cbn [mbind res_bind].
    destruct (colour g cnt col O u ltac:(lia)) as (a & Ha & Hac).
    destruct (rfor_inv (fun done r' => length r' = cnt /\ forall x y, edge r' x y <-> edge r x y \/ x <> y /\ x = a /\ exists v, v ∈ done /\ col !! v = Some y) es
      (fun v r => a ← vget col u; b ← vget col v; if a =? b then Ok r else g_push r a b) r) as (r' & Er' & Lr' & Hr').
    + split; [exact Lr|]. intros x y. split; [auto|]. intros [H|(_ & _ & v & H & _)]; [exact H|inversion H].
    + intros done v rest r1 Hsp [L1 H1]. assert (Hv : v < length g). { apply (V1 u). exists es. split; [exact Hes|]. rewrite Hsp. apply elem_of_app. right. left. }
      destruct (colour g cnt col O v Hv) as (b & Hb & _). rewrite (vget_ok _ _ _ Ha), (vget_ok _ _ _ Hb). cbn [mbind res_bind].
      destruct (Nat.eqb_spec a b) as [<-|Hne].
      * exists r1. split; [reflexivity|]. split; [exact L1|]. intros x y. rewrite H1. split; (intros [H|(N & -> & w & Hw & Hy)]; [auto|]); right; (split; [exact N|]); (split; [reflexivity|]); exists w; (split; [|exact Hy]).
        -- apply elem_of_app. auto.
        -- apply elem_of_app in Hw as [Hw|Hw]; [exact Hw|]. apply elem_of_list_singleton in Hw as ->. congruence.
      * destruct (g_push_ok r1 a b) as (r2 & -> & L2 & H2); [lia|]. exists r2. split; [reflexivity|]. split; [lia|]. intros x y. rewrite H2, H1. split.
        -- intros [[H|(N & -> & w & Hw & Hy)]|[-> ->]]; [auto| |]; right; (split; [assumption|]); (split; [reflexivity|]); [exists w|exists v]; (split; [apply elem_of_app|assumption]); [auto|right; left].
        -- intros [H|(N & -> & w & Hw & Hy)]; [auto|]. apply elem_of_app in Hw as [Hw|Hw]; [left; right; eauto 10|]. apply elem_of_list_singleton in Hw as ->. right. split; congruence.
    + exists r'. split; [exact Er'|]. split; [exact Lr'|]. intros x y. rewrite Hr', Hr. split.
      * intros [(N & p & q & H1 & H2)|(N & -> & v & Hv & Hy)]; (split; [exact N|]); [exists p, q; split; [lia|exact H2]|]. exists u, v. split; [lia|]. split; [exists es; auto|]. auto.
      * intros (N & p & q & H1 & H2 & H3 & H4). destruct (decide (p = u)) as [->|Hne]; [|left; split; [exact N|]; exists p, q; split; [lia|auto]]. right. split; [exact N|]. split; [congruence|].
        destruct H2 as (es' & G1 & G2). exists q. split; [congruence|exact H4].
  - exists r. split; [reflexivity|]. split; [unfold range; exact Er|]. split; [exact Lr|]. assert (H : forall a b, edge r a b <-> a <> b /\ exists u v, edge g u v /\ col !! u = Some a /\ col !! v = Some b).
    { intros a b. rewrite Hr. split; intros (N & u & v & H); (split; [exact N|]); exists u, v; [tauto|]. split; [apply (edge_lt g u v); tauto|tauto]. }
    split; [exact H|]. intros a b Eab. apply H in Eab as (_ & u & v & H1 & H2 & H3). exact (T u v a b H1 H2 H3).
Qed.
