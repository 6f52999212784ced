(** Properties C25, C26: src/graph/tarjan.rs *)
From stdpp Require Import relations.
From Verif Require Import Prelude IntModel SccModel SccSpec SccProof SccPanic.

(** C25: on every graph (edge targets in range, fewer than 2^31 vertices) scc terminates without panic and returns the number
    of colours and a colour per vertex: every colour below the count is used, and two vertices share a colour iff they reach
    each other. *)
Theorem C25_scc : forall g,
  (forall u v, edge g u v -> v < length g) -> (Z.of_nat (length g) <= 2 ^ 31 - 1)%Z ->
  exists cnt col, scc g = Ok (cnt, col) /\ length col = length g /\
    (forall u k, col !! u = Some k -> k < cnt) /\
    (forall k, k < cnt -> exists u, col !! u = Some k) /\
    (forall u v a b, col !! u = Some a -> col !! v = Some b -> (a = b <-> reach g u v /\ reach g v u)).
Proof.
  intros g Hg Hn. destruct (scc_ok g (length g) eq_refl Hn Hg) as (cnt & col & E & H1 & H2 & H3 & H4 & _). exists cnt, col. auto.
Qed.
Print Assumptions C25_scc.

(** C26: the colours are in reverse topological order: no edge goes to a larger colour. *)
Theorem C26_reverse_topological : forall g,
  (forall u v, edge g u v -> v < length g) -> (Z.of_nat (length g) <= 2 ^ 31 - 1)%Z ->
  exists cnt col, scc g = Ok (cnt, col) /\
    forall u v a b, edge g u v -> col !! u = Some a -> col !! v = Some b -> b <= a.
Proof.
  intros g Hg Hn. destruct (scc_ok g (length g) eq_refl Hn Hg) as (cnt & col & E & _ & _ & _ & _ & H). exists cnt, col. auto.
Qed.
Print Assumptions C26_reverse_topological.

(** scc always returns or panics, and panics exactly when some edge leads out of the graph or there are more vertices than i32
    can number. *)
Theorem C25_panics : forall g, scc g <> Diverge /\ (scc g = Panic <-> (exists u v, edge g u v /\ length g <= v) \/ (2 ^ 31 <= Z.of_nat (length g))%Z).
Proof.
  intros g. pose proof (scc_p g (length g) eq_refl) as H. split; [intros E; rewrite E in H; exact H|]. split.
  - intros E. destruct (decide (2 ^ 31 <= Z.of_nat (length g))%Z) as [|Hs]; [auto|]. left.
    destruct (decide (Exists (Exists (fun v => length g <= v)) g)) as [Hx|Hx].
    + apply Exists_exists in Hx as (es & Hes & Hx). apply Exists_exists in Hx as (v & Hv & Hlt).
      apply elem_of_list_lookup in Hes as [u Hu]. exists u, v. split; [exists es; auto|exact Hlt].
    + destruct (C25_scc g) as (cnt & col & E' & _); [|lia|congruence].
      intros u v (es & Hu & Hv). destruct (decide (v < length g)) as [|Hlt]; [assumption|]. exfalso. apply Hx.
      apply Exists_exists. exists es. split; [apply elem_of_list_lookup_2 in Hu; exact Hu|]. apply Exists_exists. exists v. split; [exact Hv|lia].
  - intros Hb. destruct (scc g) as [r| |]; cbn [okp] in H; [|reflexivity|contradiction]. destruct H as [H1 H2].
    destruct Hb as [(u & v & He & Hlt)|Hb]; [specialize (H2 u v He)|]; lia.
Qed.
Print Assumptions C25_panics.
Example C25_panics_nonvacuous : scc [[1]; [0; 2]] = Panic /\ edge [[1]; [0; 2]] 1 2.
Proof. split; [vm_compute; reflexivity|]. exists [0; 2]. split; [reflexivity|]. right. left. Qed.

(** Two cycles 0-1-2 and 3-4 joined by an edge, a vertex with a loop, cross edges. *)
Definition ex_g : list (list nat) := [[1]; [2; 3]; [0; 4]; [4]; [3; 5]; [5]; [0; 5]].
Example C25_nonvacuous : (forall u v, edge ex_g u v -> v < length ex_g) /\ scc ex_g = Ok (4, [2; 2; 2; 1; 1; 0; 3]).
Proof.
  split; [|vm_compute; reflexivity]. intros u v (es & E & Hv). apply elem_of_list_lookup_2 in E. revert v Hv.
  assert (Forall (Forall (fun v => v < length ex_g)) ex_g) as H by (vm_compute; repeat constructor).
  rewrite Forall_forall in H. specialize (H es E). rewrite Forall_forall in H. exact H.
Qed.
