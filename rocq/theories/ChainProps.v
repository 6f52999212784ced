(** Path covers and antichains with AugmentedPath (C134). *)
From Verif Require Import Prelude UtilModel MatchingModel MatchingSpec MatchRelModel MatchRelSpec MatchRelProof CoverSpec CoverProof ChainModel ChainSpec ChainProof.
From stdpp Require Import relations.

Lemma chain_size n E : fits n n E -> acyclic E -> exists k, path_cover_size n E = Ok (n - k) /\ max_matching_size E k /\ k <= n.
Proof.
  intros Hf Ha. destruct (match_size_ok n n E Hf) as (k & Ek & Hk). exists k. destruct Hk as [(M & HM & <-) Hmax] eqn:Q. destruct (matching_cover n E Ha Hf M HM) as (ps & _ & _ & Hlen).
  unfold path_cover_size. rewrite Ek. cbn [mbind res_bind]. unfold nsub. destruct (Nat.leb_spec (length M) n); [|lia]. split_and!; [reflexivity|exact (conj (ex_intro _ M (conj HM eq_refl)) Hmax)|lia].
Qed.

(** C134: in an acyclic graph, n - solve() is the smallest number of disjoint paths covering all vertices. *)
Theorem C134_path_cover : forall n E, fits n n E -> acyclic E ->
  exists k, path_cover_size n E = Ok k /\ (exists ps, path_cover n E ps /\ length ps = k) /\ forall ps, path_cover n E ps -> k <= length ps.
Proof.
  intros n E Hf Ha. destruct (chain_size n E Hf Ha) as (k & Ek & [(M & HM & <-) Hmax] & Hk). exists (n - length M). split; [exact Ek|]. split.
  - destruct (matching_cover n E Ha Hf M HM) as (ps & Hps & _ & Hlen). exists ps. split; [exact Hps|lia].
  - intros ps Hps. destruct (cover_matching n E ps Hps) as (M' & HM' & Hlen). specialize (Hmax M' HM'). lia.
Qed.
Print Assumptions C134_path_cover.
(** Dilworth's theorem: if the graph is transitive as well, it is the size of the largest antichain. *)
Theorem C134_antichain : forall n E, fits n n E -> acyclic E -> transitive_edges E ->
  exists k, path_cover_size n E = Ok k /\ (exists A, antichain n E A /\ length A = k) /\ forall A, antichain n E A -> length A <= k.
Proof.
  intros n E Hf Ha Ht. destruct (chain_size n E Hf Ha) as (k & Ek & Hm & Hk). exists (n - k). split; [exact Ek|].
  assert (Up : forall A, antichain n E A -> length A <= n - k).
  { intros A HA. destruct Hm as [(M & HM & <-) _]. destruct (matching_cover n E Ha Hf M HM) as (ps & Hps & _ & Hlen). pose proof (antichain_le n E A ps Ht HA Hps). lia. }
  split; [|exact Up]. destruct (koenig E k Hm) as [(L & R & Hc & Hl) _]. destruct (cover_antichain n E L R Hc) as (A & HA & Hlen). exists A. split; [exact HA|]. specialize (Up A HA). lia.
Qed.
Print Assumptions C134_antichain.
(** A diamond needs two paths, and its two middle vertices are an antichain; on a cycle the answer 0 would be wrong. *)
Definition diamond : list (nat * nat) := [(0, 1); (0, 2); (1, 3); (2, 3); (0, 3)].
Example C134_nonvacuous : fits 4 4 diamond /\ acyclic diamond /\ transitive_edges diamond /\ path_cover_size 4 diamond = Ok 2 /\ path_cover_size 2 [(0, 1); (1, 0)] = Ok 0.
Proof.
  assert (U : forall u v, (u, v) ∈ diamond -> (u = 0 /\ 0 < v < 4) \/ (0 < u < 3 /\ v = 3)).
  { intros u v H. unfold diamond in H. rewrite !elem_of_cons in H. destruct H as [[= -> ->]|[[= -> ->]|[[= -> ->]|[[= -> ->]|[[= -> ->]|H]]]]]; [lia..|inversion H]. }
  split; [intros u v H; destruct (U u v H); lia|]. split.
  - intros u H. assert (G : forall a b, tc (fun a b => (a, b) ∈ diamond) a b -> a < b).
    { induction 1 as [a b H1|a b c H1 _ IH]; apply U in H1; lia. }
    specialize (G u u H). lia.
  - split; [|split; vm_compute; reflexivity]. intros a b c H1 H2. apply U in H1, H2. assert (a = 0 /\ c = 3) as [-> ->] by lia. unfold diamond. rewrite !elem_of_cons. tauto.
Qed.
