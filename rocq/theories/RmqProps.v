(** Lowest common ancestors by a SparseTable over the visiting order: main theorem (C135). *)
From Verif Require Import Prelude TreeSpec TreeProof LiftModel LiftProof LiftProps EulerProof TreeMetricProps RmqModel RmqProof.

(** C135: on every tree the table is built, every query returns the lowest common ancestor, and it is what BinaryLifting::lca returns. *)
Theorem C135_lca : forall g root, lift_ok g root (fun b => exists data, rmq_from b = Ok data /\
  forall u v, u < length g -> v < length g -> exists l, rmq_lca b data u v = Ok l /\ bl_lca b u v = Ok l /\ l < length g /\ is_lca g root u v l).
Proof.
  intros g root. lifted b. destruct (from_tour g root T Hr Hn) as (b' & l & E' & O). assert (b' = b) as -> by congruence.
  destruct (rmq_ok g root par dep R lv H1 H2 b B l O Hn) as (data & Ed & Q). exists data. split; [exact Ed|]. intros u v Hu Hv.
  destruct (Q u v Hu Hv) as (x & Ex & Lx). destruct (lca_ok g root par dep R lv H1 H2 b B u v Hu Hv) as (y & Ey & Hy & Ly).
  assert (x = y) as -> by (exact (lcap_unique g root par dep R u v x y Hu Lx Ly)). exists y. split; [exact Ex|]. split; [exact Ey|]. split; [exact Hy|]. eapply is_lca_iff; eauto.
Qed.
Print Assumptions C135_lca.

(** The tree of C20_nonvacuous, rooted at 3: the answer is neither vertex, then one of them, then a vertex with itself. *)
Example C135_nonvacuous : is_tree ex_tree /\
  (b ← bl_from ex_tree 3; d ← rmq_from b; rmq_lca b d 5 6) = Ok 4 /\ (b ← bl_from ex_tree 3; d ← rmq_from b; rmq_lca b d 1 5) = Ok 2 /\
  (b ← bl_from ex_tree 3; d ← rmq_from b; rmq_lca b d 6 2) = Ok 2 /\ (b ← bl_from ex_tree 3; d ← rmq_from b; rmq_lca b d 6 6) = Ok 6.
Proof. split; [exact ex_tree_ok|]. vm_compute. auto 20. Qed.
