(** Choosing items by a minimum cut (C133). *)
From Verif Require Import Prelude IntModel DinicModel DinicSpec FlowRelModel SelectModel SelectSpec SelectProof.
Open Scope Z_scope.

(** C133: the answer is the largest profit of a set of items, penalties deducted. *)
Theorem C133_best : forall T ps rs, T ∈ prim_types -> Z.of_nat (length ps + 2) <= 2 ^ 31 - 1 -> profits_ok T ps -> pairs_ok T (length ps) rs -> pos_sum ps <= it_max T ->
  exists v, best_gain T ps rs = Ok v /\ 0 <= v <= it_max T /\ (exists X, profit ps rs X = v) /\ forall X, profit ps rs X <= v.
Proof. intros T ps rs HT Hn Hp Hr Hs. destruct (best_ok T ps rs HT Hn Hp Hr Hs) as (v & E & B & H). exists v. split; [exact E|]. split; [lia|exact H]. Qed.
Print Assumptions C133_best.
(** With T::MAX as penalty it is the largest profit of a closed set. *)
Theorem C133_closure : forall T ps qs, T ∈ prim_types -> Z.of_nat (length ps + 2) <= 2 ^ 31 - 1 -> profits_ok T ps -> (forall u v, (u, v) ∈ qs -> (u < length ps)%nat /\ (v < length ps)%nat) -> pos_sum ps < it_max T ->
  exists v, best_closed T ps qs = Ok v /\ (exists X, closed qs X /\ gain 0 ps X = v) /\ forall X, closed qs X -> gain 0 ps X <= v.
Proof.
  intros T ps qs HT Hn Hp Hq Hs. assert (H0 : 0 <= pos_sum ps) by (rewrite <- (gain_none ps 0); apply gain_le).
  destruct (best_ok T ps (map (fun q => (q, it_max T)) qs) HT Hn Hp) as (v & E & B & (X & HX) & M).
  - apply Forall_forall. intros r Hr. apply elem_of_list_fmap in Hr as ([a b] & -> & Hab). destruct (Hq a b Hab). cbn. split_and!; lia.
  - lia.
  - exists v. split; [exact E|]. split.
    + exists X. destruct (fine_open (it_max T) qs X ltac:(lia)) as [[C F]|F]; unfold profit in HX; [split; [exact C|lia]|]. pose proof (gain_le ps X 0). lia.
    + intros Y HY. specialize (M Y). unfold profit in M. enough (fine (map (fun q => (q, it_max T)) qs) Y = 0) by lia.
      clear -HY. induction qs as [|[u w] qs IH]; [reflexivity|]. cbn [map fine fst snd]. rewrite IH by (intros a b Hab; apply HY; right; exact Hab). specialize (HY u w (elem_of_list_here _ _)). destruct (Y u); [rewrite HY by reflexivity|]; reflexivity.
Qed.
Print Assumptions C133_closure.
(** Two projects of 5 and 4, both needing a tool of 3, one also a tool of 6: take the first and its tool; with a rental of 1 for the dear tool take everything else. *)
Example C133_nonvacuous : best_closed i32 [5; 4; -3; -6] [(0, 2); (1, 2); (1, 3)]%nat = Ok 2 /\ best_gain i32 [5; 4; -3; -6] [(0%nat, 2%nat, 100); (1%nat, 2%nat, 100); (1%nat, 3%nat, 1)] = Ok 5 /\
  profits_ok i32 [5; 4; -3; -6] /\ pos_sum [5; 4; -3; -6] < it_max i32.
Proof. split; [vm_compute; reflexivity|]. split; [vm_compute; reflexivity|]. split; [repeat constructor; vm_compute; discriminate|vm_compute; reflexivity]. Qed.
Close Scope Z_scope.
