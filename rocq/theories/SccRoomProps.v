(** How many vertices the stack of scc holds (C152). *)
From stdpp Require Import relations.
From Verif Require Import Prelude IntModel SccModel SccSpec SccProps SccRoomModel SccRoomProof SccNeedProof.

(** C152: with a stack that refuses more than k >= n vertices scc gives the same result, or panics alike, as without that limit;
    for arbitrary g, edges out of range included. *)
Theorem C152_scc : forall k g, length g <= k -> scc_room k g = scc g.
Proof. exact scc_fits. Qed.
Print Assumptions C152_scc.

(** Less is not enough: for every n there is a graph of n vertices whose stack holds all n. *)
Theorem C152_tight : forall n, (Z.of_nat n < 2 ^ 31)%Z -> exists g, length g = n /\ (exists r, scc g = Ok r) /\ forall k, k < n -> scc_room k g = Panic.
Proof.
  intros n Hn. exists (path_graph n). assert (length (path_graph n) = n) as L by (unfold path_graph; rewrite map_length, seq_length; reflexivity). split; [exact L|]. split; [|intros k Hk; apply path_tight; assumption].
  destruct (C25_scc (path_graph n)) as (cnt & col & E & _); [|rewrite L; lia|eauto].
  intros u v (es & Hu & Hv). rewrite L. pose proof (lookup_lt_Some _ _ _ Hu) as Hl. rewrite L in Hl. rewrite path_get in Hu by exact Hl. injection Hu as <-. destruct (Nat.ltb_spec (S u) n); [apply elem_of_list_singleton in Hv; lia|apply elem_of_nil in Hv; contradiction].
Qed.
Print Assumptions C152_tight.

(** A run with a limit that ends gives the answer of scc, and its stack has room for every set of vertices reaching each other. *)
Theorem C152_needs : forall k g r, scc_room k g = Ok r -> scc g = Ok r /\
  forall l, NoDup l -> (forall u, u ∈ l -> u < length g) -> (forall u v, u ∈ l -> v ∈ l -> reach g u v) -> length l <= k.
Proof. exact need. Qed.
Print Assumptions C152_needs.

(** Two components of two vertices each, found one inside the other: the stack holds all four; apart, it holds two. *)
Example C152_nonvacuous :
  scc_room 4 [[1]; [0; 2]; [3]; [2]] = Ok (2, [1; 1; 0; 0]) /\ scc_room 3 [[1]; [0; 2]; [3]; [2]] = Panic /\
  scc_room 2 [[1]; [0]; [3]; [2]] = Ok (2, [0; 0; 1; 1]) /\ scc_room 1 [[1]; [0]; [3]; [2]] = Panic /\ scc_room 9 [[7]] = Panic.
Proof. vm_compute. auto. Qed.
