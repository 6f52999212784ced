(** Relations between several runs of AugmentedPath: main theorems. *)
From Verif Require Import Prelude ArraySpec MatchingModel MatchingSpec MatchingProof MatchingProps CoverProps MatchRelModel MatchRelSpec MatchRelProof.

(** C123: the answer depends only on the set of edges: not on their order or multiplicity, nor on unused vertices. *)
Theorem C123_same_edges : forall n m n' m' E E', fits n m E -> fits n' m' E' -> (forall e, e ∈ E <-> e ∈ E') ->
  exists k, match_size n m E = Ok k /\ match_size n' m' E' = Ok k.
Proof.
  intros n m n' m' E E' H H' S. destruct (match_size_ok n m E H) as (k & -> & K). destruct (match_size_ok n' m' E' H') as (k' & -> & K'). exists k. split; [reflexivity|]. f_equal.
  apply Nat.le_antisymm; [apply (max_mono E' E); [apply S|assumption..]|apply (max_mono E E'); [apply S|assumption..]].
Qed.
Print Assumptions C123_same_edges.

(** Nor on whether solve was called in between. *)
Theorem C123_incremental : forall n m ops b outs, run bm_step (bm_new n m) ops = Ok (b, outs) -> fits n m (edges_of ops) ->
  exists b' k, bm_solve b = Ok (b', k) /\ match_size n m (edges_of ops) = Ok k.
Proof.
  intros n m ops b outs Hr HE. destruct (match_size_ok n m _ HE) as (k & -> & K).
  destruct (C23_matching n m (ops ++ [BmSolve])) as (b2 & outs2 & Er & _).
  { apply Forall_app. split; [|repeat constructor]. apply Forall_forall. intros [u v|] Hin; [|exact I]. apply HE. apply elem_of_list_omap. eexists. split; [exact Hin|reflexivity]. }
  rewrite run_app, Hr in Er. cbn [mbind res_bind fst snd run bm_step] in Er. destruct (bm_solve b) as [[b' k']| |] eqn:Es; [|discriminate|discriminate].
  exists b', k'. split; [reflexivity|]. f_equal. apply (max_unique _ _ _ K). exact (proj1 (solve_meaning n m ops b outs b' k' Hr Es)).
Qed.
Print Assumptions C123_incremental.

(** The two sides may be exchanged. *)
Theorem C123_swapped : forall n m E, fits n m E -> exists k, match_size n m E = Ok k /\ match_size m n (swapped E) = Ok k.
Proof.
  intros n m E H. destruct (match_size_ok n m E H) as (k & -> & K). exists k. split; [reflexivity|]. apply match_size_iff; [|apply max_swapped; exact K].
  intros u v Hin. apply elem_of_list_In, in_map_iff in Hin as ([a c] & [= <- <-] & Hx). apply elem_of_list_In, H in Hx as [? ?]. auto.
Qed.
Print Assumptions C123_swapped.

(** Identifying vertices never makes the answer larger; renaming them apart leaves it. *)
Theorem C123_renamed : forall n m n' m' f g E, fits n m E -> fits n' m' (renamed f g E) ->
  exists k k', match_size n m E = Ok k /\ match_size n' m' (renamed f g E) = Ok k' /\ k' <= k /\
    ((forall u u', u < n -> u' < n -> f u = f u' -> u = u') -> (forall v v', v < m -> v' < m -> g v = g v' -> v = v') -> k' = k).
Proof.
  intros n m n' m' f g E H H'. destruct (match_size_ok n m E H) as (k & -> & K). destruct (match_size_ok n' m' _ H') as (k' & -> & K'). exists k, k'. split; [reflexivity|]. split; [reflexivity|]. split; [eapply max_renamed; eauto|].
  intros Hf Hg. apply (max_renamed_inj f g E); try assumption; intros [u v] [u' v'] He He'; apply H in He as [? ?]; apply H in He' as [? ?]; cbn; auto.
Qed.
Print Assumptions C123_renamed.

(** Two graphs together: at least either answer, at most the sum, and the sum if they share no vertex. *)
Theorem C123_union : forall n m E E', fits n m E -> fits n m E' ->
  exists k k' s, match_size n m E = Ok k /\ match_size n m E' = Ok k' /\ match_size n m (E ++ E') = Ok s /\ Nat.max k k' <= s <= k + k' /\
    ((forall e e', e ∈ E -> e' ∈ E' -> e.1 <> e'.1 /\ e.2 <> e'.2) -> s = k + k').
Proof.
  intros n m E E' H H'. assert (HS : fits n m (E ++ E')) by (intros u v [Hin|Hin]%elem_of_app; auto).
  destruct (match_size_ok n m E H) as (k & -> & K). destruct (match_size_ok n m E' H') as (k' & -> & K'). destruct (match_size_ok n m _ HS) as (s & -> & KS). exists k, k', s. split_and!; try reflexivity.
  - apply Nat.max_lub; [apply (max_mono E (E ++ E'))|apply (max_mono E' (E ++ E'))]; try assumption; intros e He; apply elem_of_app; auto.
  - exact (max_app E E' k k' s K K' KS).
  - intros Hd. exact (max_union E E' k k' s Hd K K' KS).
Qed.
Print Assumptions C123_union.

(** All edges of one vertex, of either side, together add at most 1; so does one edge. *)
Theorem C123_one_vertex : forall n m E E' w, fits n m E -> fits n m E' -> (forall e, e ∈ E' -> e.1 = w) \/ (forall e, e ∈ E' -> e.2 = w) ->
  exists k s, match_size n m E = Ok k /\ match_size n m (E ++ E') = Ok s /\ k <= s <= k + 1.
Proof.
  intros n m E E' w H H' Hw. destruct (C123_union n m E E' H H') as (k & k' & s & E1 & E2 & E3 & B & _). exists k, s. split; [exact E1|]. split; [exact E3|].
  assert (k' <= 1); [|lia]. apply (match_size_iff n m E' k' H') in E2. destruct Hw as [Hw|Hw]; [eapply star_left; eauto|eapply star_right; eauto].
Qed.
Print Assumptions C123_one_vertex.

(** A vertex of either side that is matched stays matched, whatever edges are added and however often solve is called. *)
Theorem C123_stays : forall b ops b' outs, run bm_step b ops = Ok (b', outs) -> stays (bm_l b) (bm_l b') /\ stays (bm_r b) (bm_r b').
Proof. intros b ops b' outs. exact (run_stays ops b b' outs). Qed.
Print Assumptions C123_stays.

(** A second solve returns the same and leaves every field as it is. *)
Theorem C123_again : forall b b' k, bm_solve b = Ok (b', k) -> bm_solve b' = Ok (b', k).
Proof. intros b b' k H. apply (solve_stays b b' k H). Qed.
Print Assumptions C123_again.

(** A graph whose matching must be rearranged; its mirror image, a quotient, and the history with a solve in the middle. *)
Definition ex_match : list (nat * nat) := [(0, 0); (0, 1); (1, 0); (2, 1); (2, 2); (1, 0)].
Example C123_nonvacuous : match_size 3 3 ex_match = Ok 3 /\ match_size 3 3 (swapped ex_match) = Ok 3 /\ match_size 5 4 (rev ex_match) = Ok 3 /\
  match_size 3 3 (renamed (fun u => u / 2) id ex_match) = Ok 2 /\ match_size 3 3 [(0, 0); (0, 1)] = Ok 1 /\ match_size 3 3 [(1, 0); (2, 1); (2, 2)] = Ok 2 /\
  (exists b outs b' outs', run bm_step (bm_new 3 3) [BmEdge 0 0; BmSolve] = Ok (b, outs) /\ run bm_step b [BmEdge 1 0; BmEdge 0 1; BmSolve] = Ok (b', outs') /\
     bm_l b = [Some 0; None; None] /\ bm_l b' = [Some 1; Some 0; None] /\ bm_r b' = [Some 1; Some 0; None] /\ bm_solve b' = Ok (b', 2)).
Proof. split_and!; try (vm_compute; reflexivity). do 4 eexists. split; [vm_compute; reflexivity|]. split; [vm_compute; reflexivity|]. vm_compute. auto. Qed.
