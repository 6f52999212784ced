From Verif Require Import Prelude UtilModel TreeSpec TreeProof LiftModel LiftProof TreeMetricModel TreeMetricSpec.

Lemma dist_unique g u v d e : is_dist g u v d -> is_dist g u v e -> d = e.
Proof. intros [(l1 & W1 & L1) M1] [(l2 & W2 & L2) M2]. pose proof (M1 l2 W2). pose proof (M2 l1 W1). lia. Qed.

Section tree.
  Context (g : list (list nat)) (root : nat) (par dep : nat -> nat) (Ht : rtree g root par dep).
  Notation n := (length g).
  Notation anc := (anc par).
  Notation lcap := (lcap par).
  Lemma lcap_sym u v l : lcap u v l -> lcap v u l.
  Proof. intros (A & B & C). split; [exact B|]. split; [exact A|]. auto. Qed.

  (** Of the three lowest common ancestors of three vertices two are equal; the third is below them. *)
  Lemma lca_three a b c x y z : a < n -> b < n -> c < n -> lcap a b x -> lcap b c y -> lcap a c z -> (x = y /\ anc x z) \/ (x = z /\ anc x y) \/ (y = z /\ anc y x).
  Proof.
    intros Ha Hb Hc (X1 & X2 & X3) (Y1 & Y2 & Y3) (Z1 & Z2 & Z3).
    assert (Hx : x < n) by exact (anc_lt _ _ _ _ Ht x a Ha X1). assert (Hy : y < n) by exact (anc_lt _ _ _ _ Ht y b Hb Y1). assert (Hz : z < n) by exact (anc_lt _ _ _ _ Ht z a Ha Z1).
    assert (AS : forall p q, p < n -> q < n -> anc p q -> anc q p -> p = q) by (intros p q; apply (anc_antisym _ _ _ _ Ht)).
    assert (T : forall p q r, anc p q -> anc q r -> anc p r) by (intros p q r; apply anc_trans).
    destruct (anc_comparable par x y b X2 Y1) as [A|A]; destruct (anc_comparable par x z a X1 Z1) as [B|B]; destruct (anc_comparable par y z c Y2 Z2) as [C|C]; eauto 10.
    all: try (left; split; [apply AS; eauto 6|eauto]; fail). all: try (right; left; split; [apply AS; eauto 6|eauto]; fail). all: try (right; right; split; [apply AS; eauto 6|eauto]; fail).
  Qed.
  Lemma lca_three_dep a b c x y z : a < n -> b < n -> c < n -> lcap a b x -> lcap b c y -> lcap a c z ->
    (dep x = dep y /\ dep x <= dep z) \/ (dep x = dep z /\ dep x <= dep y) \/ (dep y = dep z /\ dep y <= dep x).
  Proof.
    intros Ha Hb Hc X Y Z. assert (Hx : x < n) by exact (anc_lt _ _ _ _ Ht x a Ha (proj1 X)). assert (Hy : y < n) by exact (anc_lt _ _ _ _ Ht y b Hb (proj1 Y)). assert (Hz : z < n) by exact (anc_lt _ _ _ _ Ht z a Ha (proj1 Z)).
    destruct (lca_three a b c x y z Ha Hb Hc X Y Z) as [[-> A]|[[-> A]|[-> A]]]; apply (anc_dep _ _ _ _ Ht) in A; auto.
  Qed.

  (** The distance by depths *)
  Definition dd (u v d : nat) : Prop := exists l, l < n /\ lcap u v l /\ dep l <= dep u /\ dep l <= dep v /\ d = dep u + dep v - 2 * dep l.
  Lemma dist_dd u v d : u < n -> v < n -> is_dist g u v d <-> dd u v d.
  Proof.
    intros Hu Hv. assert (Hdd : forall l, lcap u v l -> l < n /\ dep l <= dep u /\ dep l <= dep v).
    { intros l (L1 & L2 & _). split; [exact (anc_lt _ _ _ _ Ht l u Hu L1)|]. split; apply (anc_dep _ _ _ _ Ht); assumption. }
    split.
    - intros H. destruct (lcap_exists _ _ _ _ Ht u v Hu Hv) as (l & L). destruct (Hdd l L) as (H1 & H2 & H3). exists l. split_and!; try assumption. exact (dist_unique _ _ _ _ _ H (dist_ok _ _ _ _ Ht u v l Hu Hv L)).
    - intros (l & H1 & L & H2 & H3 & ->). exact (dist_ok _ _ _ _ Ht u v l Hu Hv L).
  Qed.
  Lemma four_points a b c e dab dce dac dbe dae dbc : a < n -> b < n -> c < n -> e < n ->
    is_dist g a b dab -> is_dist g c e dce -> is_dist g a c dac -> is_dist g b e dbe -> is_dist g a e dae -> is_dist g b c dbc -> dab + dce <= Nat.max (dac + dbe) (dae + dbc).
  Proof.
    intros Ha Hb Hc He H1 H2 H3 H4 H5 H6. apply dist_dd in H1 as (l1 & N1 & L1 & A1 & B1 & ->); [|assumption..]. apply dist_dd in H2 as (l2 & N2 & L2 & A2 & B2 & ->); [|assumption..]. apply dist_dd in H3 as (l3 & N3 & L3 & A3 & B3 & ->); [|assumption..].
    apply dist_dd in H4 as (l4 & N4 & L4 & A4 & B4 & ->); [|assumption..]. apply dist_dd in H5 as (l5 & N5 & L5 & A5 & B5 & ->); [|assumption..]. apply dist_dd in H6 as (l6 & N6 & L6 & A6 & B6 & ->); [|assumption..].
    pose proof (lca_three_dep a b c l1 l6 l3 Ha Hb Hc L1 L6 L3). pose proof (lca_three_dep a b e l1 l4 l5 Ha Hb He L1 L4 L5). pose proof (lca_three_dep a c e l3 l2 l5 Ha Hc He L3 L2 L5). pose proof (lca_three_dep b c e l6 l2 l4 Hb Hc He L6 L2 L4). lia.
  Qed.
  Lemma dist_sym u v d : u < n -> v < n -> is_dist g u v d -> is_dist g v u d.
  Proof. intros Hu Hv. rewrite !dist_dd by assumption. intros (l & H1 & L & H2 & H3 & ->). exists l. split_and!; auto; [apply lcap_sym; exact L|lia]. Qed.
  Lemma dist_0 u v : u < n -> v < n -> is_dist g u v 0 <-> u = v.
  Proof.
    intros Hu Hv. split.
    - intros [(l & W & E) _]. destruct W as [|x w y l He Hw]; [reflexivity|]. cbn in E. destruct Hw; cbn in E; lia.
    - intros ->. split; [exists [v]; split; [constructor|reflexivity]|]. intros l W. destruct W; cbn; lia.
  Qed.
  (** Triangle inequality, and parity *)
  Lemma triangle a b c x y z : a < n -> b < n -> c < n -> is_dist g a b x -> is_dist g b c y -> is_dist g a c z -> z <= x + y /\ Nat.Even (x + y + z).
  Proof.
    intros Ha Hb Hc X Y Z. apply dist_dd in X as (l1 & N1 & L1 & A1 & B1 & ->); [|assumption..]. apply dist_dd in Y as (l2 & N2 & L2 & A2 & B2 & ->); [|assumption..]. apply dist_dd in Z as (l3 & N3 & L3 & A3 & B3 & ->); [|assumption..].
    pose proof (lca_three_dep a b c l1 l2 l3 Ha Hb Hc L1 L2 L3). split; [lia|]. exists (dep a + dep b + dep c - dep l1 - dep l2 - dep l3). lia.
  Qed.

  (** *** Simple walks are shortest walks *)
  Lemma walk_repeat u v l : walk g u v l -> ~ NoDup l -> exists l', walk g u v l' /\ length l' < length l.
  Proof.
    induction 1 as [u|u w v l He Hw IH]; intros Hd; [exfalso; apply Hd, NoDup_singleton|].
    destruct (decide (u ∈ l)) as [Hin|Hin].
    - clear IH. destruct (walk_split g w v u l Hw Hin) as (l1 & l2 & -> & _ & W2). exists (u :: l2). split; [exact W2|]. cbn [length]. rewrite app_length. cbn. lia.
    - destruct IH as (l' & W & L); [intros Hn; apply Hd, NoDup_cons; auto|]. exists (u :: l'). split; [econstructor; eauto|cbn; lia].
  Qed.
  Lemma shortest_simple u v d l : is_dist g u v d -> walk g u v l -> (NoDup l <-> length l = S d).
  Proof.
    intros [(l0 & W0 & L0) M] W. assert (S0 : forall l, walk g u v l -> length l = S d -> NoDup l).
    { intros l1 W1 E1. destruct (decide (NoDup l1)) as [|Hd]; [assumption|]. destruct (walk_repeat u v l1 W1 Hd) as (l' & W' & L'). specialize (M l' W'). lia. }
    split; [|apply S0; exact W]. intros Hn. rewrite (walk_unique _ _ _ _ Ht u v l l0 W Hn W0 (S0 l0 W0 L0)). exact L0.
  Qed.
  Lemma between_iff u v x a b d : u < n -> v < n -> x < n -> is_dist g u x a -> is_dist g x v b -> is_dist g u v d -> between g u v x <-> a + b = d.
  Proof.
    intros Hu Hv Hx A B D. split.
    - intros (l & W & Hn & Hin). destruct (walk_split g u v x l W Hin) as (l1 & l2 & -> & W1 & W2). apply NoDup_app in Hn as (N1 & N2 & N3).
      assert (Na : NoDup (l1 ++ [x])). { apply NoDup_app. split; [exact N1|]. split; [|apply NoDup_singleton]. intros y Hy Hs. apply elem_of_list_singleton in Hs as ->. apply (N2 x Hy). left. }
      apply (shortest_simple u x a _ A W1) in Na. apply (shortest_simple x v b _ B W2) in N3.
      assert (Nl : NoDup (l1 ++ x :: l2)). { apply NoDup_app. split; [exact N1|]. split; [exact N2|]. apply (shortest_simple x v b _ B W2). exact N3. }
      apply (shortest_simple u v d _ D W) in Nl. rewrite app_length in *. cbn [length] in *. lia.
    - intros E. destruct A as [(l1 & W1 & L1) _], B as [(l2 & W2 & L2) _]. exists (l1 ++ tail l2). assert (W : walk g u v (l1 ++ tail l2)) by (eapply walk_app; eauto). split; [exact W|]. split.
      + apply (shortest_simple u v d _ D W). rewrite app_length. destruct l2; [discriminate|]. cbn [tail length] in *. lia.
      + apply elem_of_app. left. apply walk_last in W1. apply last_Some in W1 as [l' ->]. apply elem_of_app. right. left.
  Qed.
  (** A vertex of a path is known by its distance to one end. *)
  Lemma between_unique u v x y a : u < n -> v < n -> between g u v x -> between g u v y -> is_dist g u x a -> is_dist g u y a -> x = y.
  Proof.
    intros Hu Hv (l & W & Hn & Hx) (l' & W' & Hn' & Hy) X Y. rewrite (walk_unique _ _ _ _ Ht u v l' l W' Hn' W Hn) in Hy.
    assert (At : forall z, z ∈ l -> is_dist g u z a -> l !! a = Some z).
    { intros z Hz Z. destruct (walk_split g u v z l W Hz) as (l1 & l2 & -> & W1 & _). assert (Na : NoDup (l1 ++ [z])).
      { apply NoDup_app in Hn as (N1 & N2 & N3). apply NoDup_app. split; [exact N1|]. split; [|apply NoDup_singleton]. intros y0 Hy0 Hs. apply elem_of_list_singleton in Hs as ->. apply (N2 z Hy0). left. }
      apply (shortest_simple u z a _ Z W1) in Na. rewrite app_length in Na. cbn in Na. rewrite lookup_app_r by lia. replace (a - length l1) with 0 by lia. reflexivity. }
    pose proof (At x Hx X). pose proof (At y Hy Y). congruence.
  Qed.
  Lemma dist_exists u v : u < n -> v < n -> exists d, is_dist g u v d.
  Proof. intros Hu Hv. destruct (lcap_exists _ _ _ _ Ht u v Hu Hv) as (l & L). eexists. exact (dist_ok _ _ _ _ Ht u v l Hu Hv L). Qed.
  Lemma between_lt u v x : u < n -> between g u v x -> x < n.
  Proof. intros Hu (l & W & _ & Hx). destruct (walk_split g u v x l W Hx) as (l1 & l2 & _ & W1 & _). exact (walk_lt _ _ _ _ Ht _ _ _ W1 Hu). Qed.
  Lemma between_sym u v x : between g u v x -> between g v u x.
  Proof. intros (l & W & Hn & Hx). exists (rev l). split; [eapply walk_rev; eauto|]. split; [apply NoDup_ListNoDup, NoDup_rev, NoDup_ListNoDup; exact Hn|]. apply elem_of_list_In, in_rev. rewrite rev_involutive. apply elem_of_list_In. exact Hx. Qed.
  Lemma between_three_unique a b c x y : a < n -> b < n -> c < n -> between g a b x -> between g b c x -> between g a c x -> between g a b y -> between g b c y -> between g a c y -> x = y.
  Proof.
    intros Ha Hb Hc X1 X2 X3 Y1 Y2 Y3. assert (Hx : x < n) by (eapply between_lt; [exact Ha|exact X1]). assert (Hy : y < n) by (eapply between_lt; [exact Ha|exact Y1]).
    destruct (dist_exists a b Ha Hb) as (dab & Dab). destruct (dist_exists b c Hb Hc) as (dbc & Dbc). destruct (dist_exists a c Ha Hc) as (dac & Dac).
    assert (Eq : forall z, z < n -> between g a b z -> between g b c z -> between g a c z -> exists d, is_dist g a z d /\ 2 * d + dbc = dab + dac).
    { intros z Hz Z1 Z2 Z3. destruct (dist_exists a z Ha Hz) as (da & Da). destruct (dist_exists b z Hb Hz) as (db & Db). destruct (dist_exists c z Hc Hz) as (dc & Dc). exists da. split; [exact Da|].
      apply (between_iff a b z da db dab) in Z1; try assumption; [|apply dist_sym; assumption]. apply (between_iff b c z db dc dbc) in Z2; try assumption; [|apply dist_sym; assumption]. apply (between_iff a c z da dc dac) in Z3; try assumption; [|apply dist_sym; assumption]. lia. }
    destruct (Eq x Hx X1 X2 X3) as (dx & Dx & Ex). destruct (Eq y Hy Y1 Y2 Y3) as (dy & Dy & Ey). apply (between_unique a b x y dx); try assumption. replace dx with dy by lia. exact Dy.
  Qed.
  Lemma between_lca u v l : u < n -> v < n -> lcap u v l -> between g u v l.
  Proof.
    intros Hu Hv L. pose proof L as (L1 & L2 & _). assert (Hl : l < n) by exact (anc_lt _ _ _ _ Ht l u Hu L1).
    pose proof (anc_dep _ _ _ _ Ht l u Hu L1). pose proof (anc_dep _ _ _ _ Ht l v Hv L2).
    apply (between_iff u v l (dep u - dep l) (dep v - dep l) (dep u + dep v - 2 * dep l)); try assumption.
    - apply dist_sym; try assumption. apply dist_dd; try assumption. exists l. split_and!; [exact Hl|apply lcap_anc; exact L1|lia|lia|lia].
    - apply dist_dd; try assumption. exists l. split_and!; [exact Hl|apply lcap_anc; exact L2|lia|lia|lia].
    - apply dist_ok with (par := par) (root := root); assumption.
    - lia.
  Qed.
  (** Below the deepest of the three *)
  Lemma between_deep a b c x z : a < n -> b < n -> c < n -> lcap a b x -> lcap a c z -> lcap b c z -> anc z x -> between g a c x.
  Proof.
    intros Ha Hb Hc X Z Z' A. pose proof X as (X1 & X2 & X3). pose proof Z as (Z1 & Z2 & Z3). assert (Hx : x < n) by exact (anc_lt _ _ _ _ Ht x a Ha X1). assert (Hz : z < n) by exact (anc_lt _ _ _ _ Ht z a Ha Z1).
    assert (L : lcap x c z). { split; [exact A|]. split; [exact Z2|]. intros w W1 W2. apply Z3; [|exact W2]. exact (anc_trans par w x a W1 X1). }
    pose proof (anc_dep _ _ _ _ Ht x a Ha X1). pose proof (anc_dep _ _ _ _ Ht z x Hx A). pose proof (anc_dep _ _ _ _ Ht z c Hc Z2).
    apply (between_iff a c x (dep a - dep x) (dep x + dep c - 2 * dep z) (dep a + dep c - 2 * dep z)); try assumption.
    - apply dist_sym; try assumption. apply dist_dd; try assumption. exists x. split_and!; [exact Hx|apply lcap_anc; exact X1|lia|lia|lia].
    - apply dist_ok with (par := par) (root := root); assumption.
    - apply dist_ok with (par := par) (root := root); assumption.
    - lia.
  Qed.
  Lemma lxor_mid a b : Nat.lxor (Nat.lxor a b) a = b.
  Proof. rewrite (Nat.lxor_comm a b), Nat.lxor_assoc, Nat.lxor_nilpotent, Nat.lxor_0_r. reflexivity. Qed.
  Lemma median_pure a b c x y z : a < n -> b < n -> c < n -> lcap a b x -> lcap b c y -> lcap a c z ->
    let m := Nat.lxor (Nat.lxor x y) z in m < n /\ between g a b m /\ between g b c m /\ between g a c m.
  Proof.
    intros Ha Hb Hc X Y Z m. pose proof X as (X1 & _). pose proof Y as (Y1 & _). pose proof Z as (Z1 & _).
    assert (Hm : between g a b m /\ between g b c m /\ between g a c m).
    { unfold m. destruct (lca_three a b c x y z Ha Hb Hc X Y Z) as [[<- A]|[[<- A]|[<- A]]].
      - rewrite Nat.lxor_nilpotent, Nat.lxor_0_l. split_and!.
        + apply (between_deep a c b z x); try assumption. apply lcap_sym; exact Y.
        + apply between_sym, (between_deep c a b z x); try assumption; try (apply lcap_sym; assumption).
        + apply between_lca; assumption.
      - rewrite lxor_mid. split_and!.
        + apply between_sym, (between_deep b c a y x); try assumption; apply lcap_sym; assumption.
        + apply between_lca; assumption.
        + apply between_sym, (between_deep c b a y x); try assumption; apply lcap_sym; assumption.
      - rewrite Nat.lxor_assoc, Nat.lxor_nilpotent, Nat.lxor_0_r. split_and!.
        + apply between_lca; assumption.
        + apply (between_deep b a c x y); try assumption. apply lcap_sym; assumption.
        + apply (between_deep a b c x y); assumption. }
    split; [|exact Hm]. exact (between_lt a b m Ha (proj1 Hm)).
  Qed.
End tree.

(** *** The client code *)
Section lift.
  Context (g : list (list nat)) (root : nat) (par dep : nat -> nat) (Ht : rtree g root par dep).
  Context (level : nat) (Hlev : 1 <= level) (Hpow : length g < 2 ^ level) (b : bl) (B : built g par dep level b).
  Notation n := (length g).
  Notation up := (up par).
  Lemma dis_iff u v d : u < n -> v < n -> bl_dis b u v = Ok d <-> is_dist g u v d.
  Proof.
    intros Hu Hv. destruct (dis_ok g root par dep Ht level Hlev Hpow b B u v Hu Hv) as (e & E & D). rewrite E. split.
    - intros [= <-]. exact D.
    - intros H. f_equal. exact (dist_unique _ _ _ _ _ D H).
  Qed.
  Lemma on_path_ok u v x : u < n -> v < n -> x < n -> exists r, on_path b u v x = Ok r /\ (r = true <-> between g u v x).
  Proof.
    intros Hu Hv Hx. unfold on_path. destruct (dist_exists _ _ _ _ Ht u x Hu Hx) as (p & P). destruct (dist_exists _ _ _ _ Ht x v Hx Hv) as (q & Q). destruct (dist_exists _ _ _ _ Ht u v Hu Hv) as (d & D).
    rewrite (proj2 (dis_iff u x p Hu Hx) P). cbn [mbind res_bind]. rewrite (proj2 (dis_iff x v q Hx Hv) Q). cbn [mbind res_bind]. rewrite (proj2 (dis_iff u v d Hu Hv) D). cbn [mbind res_bind].
    eexists. split; [reflexivity|]. rewrite Nat.eqb_eq. symmetry. exact (between_iff _ _ _ _ Ht u v x p q d Hu Hv Hx P Q D).
  Qed.
  Lemma median_ok u v w : u < n -> v < n -> w < n -> exists m, median b u v w = Ok m /\ m < n /\ between g u v m /\ between g v w m /\ between g u w m.
  Proof.
    intros Hu Hv Hw. unfold median. destruct (lca_ok g root par dep Ht level Hlev Hpow b B u v Hu Hv) as (x & -> & _ & X). cbn [mbind res_bind].
    destruct (lca_ok g root par dep Ht level Hlev Hpow b B v w Hv Hw) as (y & -> & _ & Y). cbn [mbind res_bind]. destruct (lca_ok g root par dep Ht level Hlev Hpow b B u w Hu Hw) as (z & -> & _ & Z). cbn [mbind res_bind].
    eexists. split; [reflexivity|]. exact (median_pure _ _ _ _ Ht u v w x y z Hu Hv Hw X Y Z).
  Qed.
  Lemma farthest_ok u : u < n -> exists v d, farthest b n u = Ok (v, d) /\ v < n /\ is_dist g u v d /\ forall w e, w < n -> is_dist g u w e -> e <= d.
  Proof.
    intros Hu. unfold farthest, range.
    destruct (rfor_range_inv (fun i s => s.1 < n /\ is_dist g u s.1 s.2 /\ forall w e, w < i -> is_dist g u w e -> e <= s.2) 0 n (fun v s => d ← bl_dis b u v; Ok (if s.2 <? d then (v, d) else s)) (u, 0)) as ([v d] & E & H1 & H2 & H3).
    - lia.
    - split; [exact Hu|]. split; [apply (dist_0 g u u Hu Hu); reflexivity|]. intros w e Hw. lia.
    - intros i [v d] Hi (H1 & H2 & H3). cbn [fst snd] in *. destruct (dist_exists _ _ _ _ Ht u i Hu ltac:(lia)) as (di & Di). rewrite (proj2 (dis_iff u i di Hu ltac:(lia)) Di). cbn [mbind res_bind].
      eexists. split; [reflexivity|]. destruct (Nat.ltb_spec d di); cbn [fst snd].
      + split; [lia|]. split; [exact Di|]. intros w e Hw We. destruct (decide (w = i)) as [->|Hne]; [rewrite (dist_unique _ _ _ _ _ We Di); lia|]. specialize (H3 w e ltac:(lia) We). lia.
      + split; [exact H1|]. split; [exact H2|]. intros w e Hw We. destruct (decide (w = i)) as [->|Hne]; [rewrite (dist_unique _ _ _ _ _ We Di); lia|]. apply (H3 w e); [lia|exact We].
    - exists v, d. auto.
  Qed.
  Lemma diameter_ok : exists x y d, diameter b n = Ok (x, y, d) /\ x < n /\ y < n /\ is_dist g x y d /\ forall u v e, u < n -> v < n -> is_dist g u v e -> e <= d.
  Proof.
    assert (H0 : 0 < n) by (pose proof (t_root _ _ _ _ Ht); lia). destruct (farthest_ok 0 H0) as (x & r & E1 & Hx & D1 & M1). destruct (farthest_ok x Hx) as (y & d & E2 & Hy & D2 & M2).
    exists x, y, d. unfold diameter. rewrite E1. cbn [mbind res_bind fst snd]. rewrite E2. cbn [mbind res_bind fst snd]. split_and!; try assumption; [reflexivity|].
    intros u v e Hu Hv De. destruct (dist_exists _ _ _ _ Ht 0 u H0 Hu) as (a & A). destruct (dist_exists _ _ _ _ Ht 0 v H0 Hv) as (c & C). destruct (dist_exists _ _ _ _ Ht x u Hx Hu) as (p & P). destruct (dist_exists _ _ _ _ Ht x v Hx Hv) as (q & Q).
    pose proof (M1 u a Hu A). pose proof (M1 v c Hv C). pose proof (M2 u p Hu P). pose proof (M2 v q Hv Q).
    pose proof (four_points _ _ _ _ Ht 0 x u v r e a q c p H0 Hx Hu Hv D1 De A Q C P). lia.
  Qed.
  Lemma jump_ok v k : v < n -> k < 2 ^ level -> jump b v k = Ok (up k v).
  Proof.
    intros Hv Hk. unfold jump, range. rewrite (w_level _ _ _ (b_wf _ _ _ _ _ B)).
    destruct (rfor_range_inv (fun i x => x = up (k mod 2 ^ i) v) 0 level (fun i v => if Nat.testbit k i then pa_get (bl_pa b) v i else Ok v) v) as (x & E & ->).
    - lia.
    - rewrite Nat.pow_0_r, Nat.mod_1_r. reflexivity.
    - intros i x Hi ->. assert (Hm : k mod 2 ^ (i + 1) = Nat.b2n (Nat.testbit k i) * 2 ^ i + k mod 2 ^ i).
      { rewrite Nat.testbit_spec', Nat.add_1_r, Nat.pow_succ_r', (Nat.mul_comm 2), Nat.mod_mul_r by (try apply Nat.pow_nonzero; lia). lia. }
      rewrite Hm. destruct (Nat.testbit k i); cbn [Nat.b2n].
      + rewrite Nat.mul_1_l, up_add. eexists. split; [|reflexivity]. apply (good_pa_get par level); [|lia]. apply (b_pa _ _ _ _ _ B). apply (up_lt _ _ _ _ Ht). exact Hv.
      + eexists. split; reflexivity.
    - rewrite E, Nat.mod_small by exact Hk. reflexivity.
  Qed.
  Lemma up_dist k v : v < n -> k <= dep v -> is_dist g v (up k v) k.
  Proof.
    intros Hv Hk. assert (Hw : up k v < n) by (apply (up_lt _ _ _ _ Ht); exact Hv). apply (dist_sym _ _ _ _ Ht); try assumption.
    pose proof (dist_ok _ _ _ _ Ht (up k v) v (up k v) Hw Hv (lcap_anc par _ _ (anc_up par k v))) as D. rewrite (dep_up _ _ _ _ Ht k v Hv) in D. replace (dep v - k + dep v - 2 * (dep v - k)) with k in D by lia. exact D.
  Qed.
  (** From a vertex between u and its ancestor l, the rest of the way to v *)
  Lemma up_rest k u v l : u < n -> v < n -> lcap par u v l -> k <= dep u - dep l -> is_dist g (up k u) v (dep u + dep v - 2 * dep l - k).
  Proof.
    intros Hu Hv L Hk. pose proof L as (L1 & L2 & L3). assert (Hw : up k u < n) by (apply (up_lt _ _ _ _ Ht); exact Hu). pose proof (anc_dep _ _ _ _ Ht l u Hu L1). pose proof (anc_dep _ _ _ _ Ht l v Hv L2).
    assert (A : anc par l (up k u)).
    { destruct (anc_bound _ _ _ _ Ht l u Hu L1) as (j & J1 & J2 & J3). exists (j - k). rewrite <- up_add. replace (j - k + k) with j by lia. exact J2. }
    assert (L' : lcap par (up k u) v l). { split; [exact A|]. split; [exact L2|]. intros w W1 W2. apply L3; [|exact W2]. exact (anc_trans par w _ u W1 (anc_up par k u)). }
    pose proof (dist_ok _ _ _ _ Ht (up k u) v l Hw Hv L') as D. rewrite (dep_up _ _ _ _ Ht k u Hu) in D. replace (dep u + dep v - 2 * dep l - k) with (dep u - k + dep v - 2 * dep l) by lia. exact D.
  Qed.
  Lemma path_kth_ok u v k d : u < n -> v < n -> is_dist g u v d -> k <= d -> exists x, path_kth b u v k = Ok x /\ x < n /\ is_dist g u x k /\ is_dist g x v (d - k).
  Proof.
    intros Hu Hv D Hk. unfold path_kth. destruct (lca_ok g root par dep Ht level Hlev Hpow b B u v Hu Hv) as (l & -> & Hl & L). cbn [mbind res_bind].
    rewrite (vget_ok _ _ _ (b_dep _ _ _ _ _ B u Hu)). cbn [mbind res_bind]. rewrite (vget_ok _ _ _ (b_dep _ _ _ _ _ B v Hv)). cbn [mbind res_bind]. rewrite (vget_ok _ _ _ (b_dep _ _ _ _ _ B l Hl)). cbn [mbind res_bind].
    pose proof (dist_unique _ _ _ _ _ D (dist_ok _ _ _ _ Ht u v l Hu Hv L)) as ->. pose proof L as (L1 & L2 & _). pose proof (anc_dep _ _ _ _ Ht l u Hu L1). pose proof (anc_dep _ _ _ _ Ht l v Hv L2).
    pose proof (dep_lt _ _ _ _ Ht u Hu). pose proof (dep_lt _ _ _ _ Ht v Hv).
    destruct (Nat.leb_spec k (dep u - dep l)).
    - rewrite jump_ok by lia. eexists. split; [reflexivity|]. split; [apply (up_lt _ _ _ _ Ht); exact Hu|]. split; [apply up_dist; lia|]. apply up_rest; assumption.
    - rewrite jump_ok by lia. eexists. split; [reflexivity|]. assert (Hx : up (dep u + dep v - 2 * dep l - k) v < n) by (apply (up_lt _ _ _ _ Ht); exact Hv). split; [exact Hx|].
      pose proof (up_rest (dep u + dep v - 2 * dep l - k) v u l Hv Hu (lcap_sym par u v l L) ltac:(lia)) as R. split.
      + apply (dist_sym _ _ _ _ Ht); try assumption. replace (dep v + dep u - 2 * dep l - (dep u + dep v - 2 * dep l - k)) with k in R by lia. exact R.
      + apply (dist_sym _ _ _ _ Ht); try assumption. apply up_dist; lia.
  Qed.
End lift.

(** The lowest common ancestor for another root is the median with that root. *)
Lemma lca_median g r u v m : is_tree g -> r < length g -> u < length g -> v < length g -> between g r u m -> between g u v m -> between g r v m -> is_lca g r u v m.
Proof.
  intros T Hr Hu Hv M1 M2 M3. destruct (tree_rtree g T r Hr) as (par & dep & R). destruct (lcap_exists _ _ _ _ R u v Hu Hv) as (l & L).
  assert (Hl : l < length g) by exact (anc_lt _ _ _ _ R l u Hu (proj1 L)). pose proof (proj2 (is_lca_iff _ _ _ _ R u v l Hu Hv Hl) L) as I.
  assert (E : m = l); [|rewrite E; exact I]. destruct I as (I1 & I2 & _).
  apply (between_three_unique _ _ _ _ R r u v); try assumption.
  - destruct (tree_path g T r u Hr Hu) as (p & P1 & P2). exists p. auto.
  - exact (between_lca _ _ _ _ R u v l Hu Hv L).
  - destruct (tree_path g T r v Hr Hv) as (p & P1 & P2). exists p. auto.
Qed.
