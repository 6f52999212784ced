(** The size of the smallest connected set that contains given vertices of a tree (C147). *)
From Verif Require Import Prelude TreeSpec TreeProof HldSpec LiftModel LiftProof LiftProps PathSumProof TreeMetricProps LiftLevelProps SteinerModel SteinerSpec SteinerProof.

(** For any vertices, in any order and with repetitions, half the way around them in the order of tin, plus one, is the number of vertices of the
    least connected set that contains them (0 for none).  A vertex out of range panics. *)
Theorem C147_steiner : forall g root, lift_ok g root (fun b => forall vs,
  (Forall (fun v => v < length g) vs -> exists S, hull g vs S /\ steiner b vs = Ok (length S)) /\
  (~ Forall (fun v => v < length g) vs -> steiner b vs = Panic)).
Proof.
  intros g root. lifted b. intros vs. split; intros F.
  - destruct (paths_exist g T) as [path HP]. exact (steiner_ok g root T Hr par dep R lv H1 H2 b B path HP vs F).
  - destruct (proj2 (C20_panics g root) T Hr Hn) as (b' & E' & D). assert (b' = b) as -> by congruence. unfold steiner. destruct (sort_perm b vs) as [->|(l & -> & P)]; [reflexivity|]. cbn [mbind res_bind].
    destruct (last l) as [u|] eqn:L; [|apply last_None in L as ->; exfalso; apply F; rewrite <- P; constructor]. unfold around. rewrite (around_panic b (length g)); [reflexivity| | |intros F'; apply F; rewrite <- P; exact F'].
    + intros x y H. apply D. exact H.
    + intros x y Hx Hy. destruct (dis_ok g root par dep R lv H1 H2 b B x y Hx Hy) as (d & Ed & _). eauto.
Qed.
Print Assumptions C147_steiner.

Example C147_nonvacuous : is_tree ex_path /\ (b ← bl_from ex_path 0; steiner b [6; 4; 2; 4]) = Ok 6 /\ (b ← bl_from ex_path 0; steiner b [2; 4]) = Ok 3 /\
  (b ← bl_from ex_path 0; steiner b [5]) = Ok 1 /\ (b ← bl_from ex_path 0; steiner b []) = Ok 0 /\ (b ← bl_from ex_path 0; steiner b [9]) = Panic /\
  is_tree ex_tree /\ (b ← bl_from ex_tree 3; steiner b [6; 1; 5]) = Ok 6.
Proof. split; [exact ex_path_ok|]. split_and!; try exact ex_tree_ok; vm_compute; reflexivity. Qed.
