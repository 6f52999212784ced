(** The metric of a tree, computed with BinaryLifting: main theorems. *)
From Verif Require Import Prelude UtilModel UtilProof TreeSpec TreeProof LiftModel LiftProof LiftProps TreeMetricModel TreeMetricSpec TreeMetricProof.

Ltac lifted b := intros T Hr Hn; destruct (tree_rtree _ T _ Hr) as (par & dep & R); destruct (from_ok _ _ par dep R Hn) as (b & lv & E & H1 & H2 & B); exists b; split; [exact E|].

(** C122: dis is a metric: symmetric, 0 exactly on equal vertices, with the triangle inequality; the perimeter of a triangle is even,
    and of the three sums of opposite distances of four vertices none exceeds both others (the tree is 0-hyperbolic). *)
Theorem C122_metric : forall g root, lift_ok g root (fun b =>
  (forall u v, u < length g -> v < length g -> bl_dis b u v = bl_dis b v u /\ (bl_dis b u v = Ok 0 <-> u = v)) /\
  (forall u v w x y z, u < length g -> v < length g -> w < length g -> bl_dis b u v = Ok x -> bl_dis b v w = Ok y -> bl_dis b u w = Ok z ->
     z <= x + y /\ Nat.Even (x + y + z)) /\
  (forall s t u v st uv su tv sv tu, s < length g -> t < length g -> u < length g -> v < length g ->
     bl_dis b s t = Ok st -> bl_dis b u v = Ok uv -> bl_dis b s u = Ok su -> bl_dis b t v = Ok tv -> bl_dis b s v = Ok sv -> bl_dis b t u = Ok tu ->
     st + uv <= Nat.max (su + tv) (sv + tu))).
Proof.
  intros g root. lifted b. pose proof (dis_iff g root par dep R lv H1 H2 b B) as I. split; [|split].
  - intros u v Hu Hv. split; [|rewrite I by assumption; apply dist_0; assumption]. destruct (dist_exists _ _ _ _ R u v Hu Hv) as (d & D).
    rewrite (proj2 (I u v d Hu Hv) D). symmetry. apply I; try assumption. apply (dist_sym _ _ _ _ R); assumption.
  - intros u v w x y z Hu Hv Hw. rewrite !I by assumption. exact (triangle _ _ _ _ R u v w x y z Hu Hv Hw).
  - intros s t u v st uv su tv sv tu Hs Ht Hu Hv. rewrite !I by assumption. exact (four_points _ _ _ _ R s t u v st uv su tv sv tu Hs Ht Hu Hv).
Qed.
Print Assumptions C122_metric.

(** The distances add up exactly at the vertices of the path. *)
Theorem C122_on_path : forall g root, lift_ok g root (fun b =>
  forall u v x, u < length g -> v < length g -> x < length g -> exists r, on_path b u v x = Ok r /\ (r = true <-> between g u v x)).
Proof. intros g root. lifted b. exact (on_path_ok g root par dep R lv H1 H2 b B). Qed.
Print Assumptions C122_on_path.

(** The exclusive or of the three lowest common ancestors is the one vertex common to the three paths. *)
Theorem C122_median : forall g root, lift_ok g root (fun b =>
  forall u v w, u < length g -> v < length g -> w < length g -> exists m, median b u v w = Ok m /\
    forall x, between g u v x /\ between g v w x /\ between g u w x <-> x = m).
Proof.
  intros g root. lifted b. intros u v w Hu Hv Hw. destruct (median_ok g root par dep R lv H1 H2 b B u v w Hu Hv Hw) as (m & -> & _ & M1 & M2 & M3).
  exists m. split; [reflexivity|]. intros x. split; [|intros ->; auto]. intros (X1 & X2 & X3). exact (between_three_unique _ _ _ _ R u v w x m Hu Hv Hw X1 X2 X3 M1 M2 M3).
Qed.
Print Assumptions C122_median.

(** One structure answers lowest common ancestors for every root. *)
Theorem C122_other_root : forall g root, lift_ok g root (fun b =>
  forall r u v, r < length g -> u < length g -> v < length g -> exists m, median b r u v = Ok m /\ m < length g /\ is_lca g r u v m).
Proof.
  intros g root. lifted b. intros r u v Hr' Hu Hv. destruct (median_ok g root par dep R lv H1 H2 b B r u v Hr' Hu Hv) as (m & -> & Hm & M1 & M2 & M3).
  exists m. split; [reflexivity|]. split; [exact Hm|]. apply lca_median; assumption.
Qed.
Print Assumptions C122_other_root.

(** Two sweeps find a pair of vertices at the greatest distance. *)
Theorem C122_diameter : forall g root, lift_ok g root (fun b =>
  exists x y d, diameter b (length g) = Ok (x, y, d) /\ x < length g /\ y < length g /\ is_dist g x y d /\
    forall u v e, u < length g -> v < length g -> is_dist g u v e -> e <= d).
Proof. intros g root. lifted b. exact (diameter_ok g root par dep R lv H1 H2 b B). Qed.
Print Assumptions C122_diameter.

(** The table pa gives every vertex of a path by its position. *)
Theorem C122_path_kth : forall g root, lift_ok g root (fun b =>
  forall u v d k, u < length g -> v < length g -> is_dist g u v d -> k <= d ->
  exists x, path_kth b u v k = Ok x /\ between g u v x /\ is_dist g u x k /\ is_dist g x v (d - k)).
Proof.
  intros g root. lifted b. intros u v d k Hu Hv D Hk. destruct (path_kth_ok g root par dep R lv H1 H2 b B u v k d Hu Hv D Hk) as (x & -> & Hx & X1 & X2).
  exists x. split; [reflexivity|]. split; [|auto]. apply (between_iff _ _ _ _ R u v x k (d - k) d); try assumption. lia.
Qed.
Print Assumptions C122_path_kth.

(** The tree of C20_nonvacuous, rooted at 3. *)
Example C122_nonvacuous : is_tree ex_tree /\
  (b ← bl_from ex_tree 3; on_path b 1 6 2) = Ok true /\ (b ← bl_from ex_tree 3; on_path b 1 6 3) = Ok false /\
  (b ← bl_from ex_tree 3; median b 1 5 6) = Ok 4 /\ (b ← bl_from ex_tree 3; median b 1 0 3) = Ok 0 /\
  (b ← bl_from ex_tree 3; bl_lca b 5 3) = Ok 3 /\ (b ← bl_from ex_tree 3; median b 1 5 3) = Ok 2 /\
  (b ← bl_from ex_tree 3; diameter b 7) = Ok (5, 1, 4) /\
  (b ← bl_from ex_tree 3; path_kth b 1 6 1) = Ok 0 /\ (b ← bl_from ex_tree 3; path_kth b 1 6 3) = Ok 4.
Proof. split; [exact ex_tree_ok|]. vm_compute. auto 20. Qed.
