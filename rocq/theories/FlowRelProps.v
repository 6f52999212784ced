(** C116: relations between answers of get_max_flow on related networks. *)
From Verif Require Import Prelude IntModel DinicModel DinicSpec DinicProof DinicProps FlowRelModel FlowRelSpec FlowRelProof.
Open Scope Z_scope.

(** The outcome is decided by the cuts: the smallest cut if it fits T, and a panic if every cut exceeds T. *)
Theorem C116_outcome : forall T n es s t, T ∈ prim_types -> Z.of_nat n <= 2 ^ 31 - 1 -> (s < n)%nat -> (t < n)%nat -> s <> t -> network T n es ->
  (forall v, max_flow_of T n es s t = Ok v <-> is_min_cut es s t v /\ v <= it_max T) /\
  (max_flow_of T n es s t = Panic <-> forall S, S s = true -> S t = false -> it_max T < cut_cap es S).
Proof.
  intros T n es s t HT Hn Hs Ht Hst N. destruct (outcome T n es s t ltac:(red; auto) N) as [[E P]|(v & E & [(S & S1 & S2 & S3) M] & B)].
  - split; [|split; auto]. intros v. split; [congruence|]. intros [[(S & S1 & S2 & S3) _] H]. specialize (P S S1 S2). lia.
  - split.
    + intros v'. split; [intros E'; rewrite E in E'; injection E' as <-; split; [split; eauto|lia]|]. intros [[(S' & S1' & S2' & S3') M'] _]. rewrite E. f_equal.
      specialize (M S' S1' S2'). specialize (M' S S1 S2). lia.
    + split; [congruence|]. intros H. specialize (H S S1 S2). lia.
Qed.
Print Assumptions C116_outcome.

(** The order of the add_edge calls does not matter, nor whether parallel edges are added singly or as one, nor edges into s,
    out of t, loops and edges without capacity, nor the numbers the vertices have: the outcome is the same, panics included. *)
Theorem C116_order : forall T n es es' s t, T ∈ prim_types -> Z.of_nat n <= 2 ^ 31 - 1 -> (s < n)%nat -> (t < n)%nat -> s <> t ->
  network T n es -> es ≡ₚ es' -> max_flow_of T n es s t = max_flow_of T n es' s t.
Proof.
  intros T n es es' s t HT Hn Hs Ht Hst N P. assert (N' : network T n es') by (unfold network in *; rewrite <- P; exact N).
  apply (same_cuts T n n es es' s t s t (fun S => S) (fun S => S)); try (red; auto); intros S H1 H2; split_and!; auto; [symmetry|]; apply cut_perm; exact P.
Qed.
Print Assumptions C116_order.

Theorem C116_parallel : forall T n es u v a b s t, T ∈ prim_types -> Z.of_nat n <= 2 ^ 31 - 1 -> (s < n)%nat -> (t < n)%nat -> s <> t ->
  0 <= a -> 0 <= b -> network T n ((u, v, a + b) :: es) ->
  max_flow_of T n ((u, v, a) :: (u, v, b) :: es) s t = max_flow_of T n ((u, v, a + b) :: es) s t.
Proof.
  intros T n es u v a b s t HT Hn Hs Ht Hst Ha Hb N. assert (N' : network T n ((u, v, a) :: (u, v, b) :: es)).
  { inversion N as [|? ? (A1 & A2 & A3) A4]; subst. cbn in *. repeat (apply Forall_cons; split; [cbn; split_and!; lia|]). exact A4. }
  apply (same_cuts T n n _ _ s t s t (fun S => S) (fun S => S)); try (red; auto); intros S H1 H2; split_and!; auto; cbn [cut_cap]; destruct (S u && negb (S v)); lia.
Qed.
Print Assumptions C116_parallel.

Theorem C116_useless : forall T n es s t, T ∈ prim_types -> Z.of_nat n <= 2 ^ 31 - 1 -> (s < n)%nat -> (t < n)%nat -> s <> t ->
  network T n es -> max_flow_of T n (filter (fun e => ~ useless s t e) es) s t = max_flow_of T n es s t.
Proof.
  intros T n es s t HT Hn Hs Ht Hst N. assert (N' : network T n (filter (fun e => ~ useless s t e) es)).
  { unfold network in *. rewrite Forall_forall in N |- *. intros e He. apply elem_of_list_filter in He as [_ He]. apply N, He. }
  apply (same_cuts T n n _ _ s t s t (fun S => S) (fun S => S)); try (red; auto); intros S H1 H2; split_and!; auto; [symmetry|]; apply cut_useless; auto.
Qed.
Print Assumptions C116_useless.

Theorem C116_renamed : forall T n n' es p q s t, T ∈ prim_types -> Z.of_nat n <= 2 ^ 31 - 1 -> Z.of_nat n' <= 2 ^ 31 - 1 -> (s < n)%nat -> (t < n)%nat -> s <> t ->
  (forall x, (x < n)%nat -> (p x < n')%nat /\ q (p x) = x) ->
  network T n es -> max_flow_of T n' (renamed p es) (p s) (p t) = max_flow_of T n es s t.
Proof.
  intros T n n' es p q s t HT Hn Hn' Hs Ht Hst Hp N. destruct (Hp s Hs) as [Ps Qs]. destruct (Hp t Ht) as [Pt Qt].
  assert (N' : network T n' (renamed p es)).
  { unfold network, renamed in *. rewrite Forall_map. eapply Forall_impl; [exact N|]. intros [[u v] c]. cbn. intros (A1 & A2 & A3). split_and!; try lia; apply Hp; assumption. }
  assert (p s <> p t) by congruence.
  symmetry. apply (same_cuts T n n' _ _ s t (p s) (p t) (fun S x => S (q x)) (fun S x => S (p x))); try (red; auto); intros S H1 H2; split_and!; auto; try congruence.
  - rewrite cut_renamed. apply cut_ext. intros u v c Hin. unfold network in N. rewrite Forall_forall in N. destruct (N _ Hin) as (A1 & A2 & _). cbn in A1, A2. destruct (Hp u A1) as [_ ->], (Hp v A2) as [_ ->]. auto.
  - symmetry. apply cut_renamed.
Qed.
Print Assumptions C116_renamed.

(** Turning all edges round and exchanging s and t changes nothing; so a network with every edge in both directions has as much
    flow from t to s as from s to t. *)
Theorem C116_turned : forall T n es s t, T ∈ prim_types -> Z.of_nat n <= 2 ^ 31 - 1 -> (s < n)%nat -> (t < n)%nat -> s <> t -> network T n es ->
  max_flow_of T n (turned es) t s = max_flow_of T n es s t /\
  (turned es ≡ₚ es -> max_flow_of T n es t s = max_flow_of T n es s t).
Proof.
  intros T n es s t HT Hn Hs Ht Hst N. pose proof (network_turned T n es N) as N'.
  assert (H : max_flow_of T n (turned es) t s = max_flow_of T n es s t).
  { symmetry. apply (same_cuts T n n _ _ s t t s (fun S x => negb (S x)) (fun S x => negb (S x))); try (red; auto); intros S H1 H2; cbn beta; rewrite ?H1, ?H2; split_and!; auto.
    - apply cut_turned.
    - rewrite <- cut_turned. apply cut_ext. intros u v c _. rewrite !negb_involutive. auto. }
  split; [exact H|]. intros P. rewrite <- H. symmetry. apply C116_order; auto.
Qed.
Print Assumptions C116_turned.

(** One more edge raises the answer by at most its capacity and never lowers it. *)
Theorem C116_add_edge : forall T n es u v c s t a b, T ∈ prim_types -> Z.of_nat n <= 2 ^ 31 - 1 -> (s < n)%nat -> (t < n)%nat -> s <> t -> network T n (es ++ [(u, v, c)]) ->
  max_flow_of T n es s t = Ok a -> max_flow_of T n (es ++ [(u, v, c)]) s t = Ok b -> a <= b <= a + c.
Proof.
  intros T n es u v c s t a b HT Hn Hs Ht Hst N Ea Eb. assert (St : setting T n s t) by (red; auto). pose proof N as N0. apply Forall_app in N0 as [N1 N2].
  destruct (outcome_ok _ _ _ _ _ _ St N1 Ea) as [[(S & S1 & S2 & S3) M] _]. destruct (outcome_ok _ _ _ _ _ _ St N Eb) as [[(S' & S1' & S2' & S3') M'] _].
  apply Forall_singleton in N2 as (_ & _ & Hc). cbn in Hc. specialize (M S' S1' S2'). specialize (M' S S1 S2). rewrite cut_app in S3', M'. cbn [cut_cap] in *.
  destruct (S u && negb (S v)), (S' u && negb (S' v)); lia.
Qed.
Print Assumptions C116_add_edge.

(** Multiplying all capacities multiplies the answer. *)
Theorem C116_scaled : forall T n es k s t a b, T ∈ prim_types -> Z.of_nat n <= 2 ^ 31 - 1 -> (s < n)%nat -> (t < n)%nat -> s <> t -> 0 <= k -> network T n es -> network T n (scaled k es) ->
  max_flow_of T n es s t = Ok a -> max_flow_of T n (scaled k es) s t = Ok b -> b = k * a.
Proof.
  intros T n es k s t a b HT Hn Hs Ht Hst Hk N N' Ea Eb. assert (St : setting T n s t) by (red; auto).
  destruct (outcome_ok _ _ _ _ _ _ St N Ea) as [[(S & S1 & S2 & S3) M] _]. destruct (outcome_ok _ _ _ _ _ _ St N' Eb) as [[(S' & S1' & S2' & S3') M'] _].
  specialize (M S' S1' S2'). specialize (M' S S1 S2). rewrite cut_scaled in *. nia.
Qed.
Print Assumptions C116_scaled.

(** Flows of separate networks join: what can be sent from s to u and from u to t can be sent from s to t. *)
Theorem C116_triangle : forall T n es s u t a b c, T ∈ prim_types -> Z.of_nat n <= 2 ^ 31 - 1 -> (s < n)%nat -> (u < n)%nat -> (t < n)%nat -> s <> u -> u <> t -> s <> t -> network T n es ->
  max_flow_of T n es s u = Ok a -> max_flow_of T n es u t = Ok b -> max_flow_of T n es s t = Ok c -> Z.min a b <= c.
Proof.
  intros T n es s u t a b c HT Hn Hs Hu Ht H1 H2 H3 N Ea Eb Ec.
  destruct (outcome_ok T n es s u a ltac:(red; auto) N Ea) as [[_ Ma] _]. destruct (outcome_ok T n es u t b ltac:(red; auto) N Eb) as [[_ Mb] _].
  destruct (outcome_ok T n es s t c ltac:(red; auto) N Ec) as [[(S & S1 & S2 & <-) _] _]. destruct (S u) eqn:Su; [specialize (Mb S Su S2)|specialize (Ma S S1 Su)]; lia.
Qed.
Print Assumptions C116_triangle.

Definition ex_net : list fedge := [(0%nat, 1%nat, 3); (0%nat, 2%nat, 2); (1%nat, 2%nat, 5); (1%nat, 3%nat, 2); (2%nat, 3%nat, 3); (3%nat, 0%nat, 9)].
Example C116_nonvacuous : network i32 4 ex_net /\ max_flow_of i32 4 ex_net 0 3 = Ok 5 /\ max_flow_of i32 4 (turned ex_net) 3 0 = Ok 5 /\
  max_flow_of i32 4 (scaled 7 ex_net) 0 3 = Ok 35 /\ max_flow_of i32 4 (ex_net ++ [(0%nat, 3%nat, 4)]) 0 3 = Ok 9 /\
  filter (fun e => ~ useless 0 3 e) ex_net = [(0%nat, 1%nat, 3); (0%nat, 2%nat, 2); (1%nat, 2%nat, 5); (1%nat, 3%nat, 2); (2%nat, 3%nat, 3)] /\
  max_flow_of i8 2 [(0%nat, 1%nat, 100); (0%nat, 1%nat, 100)] 0 1 = Panic.
Proof.
  split; [|repeat split; vm_compute; reflexivity]. unfold ex_net, network. repeat (apply Forall_cons; split; [cbn; repeat split; lia|]). constructor.
Qed.
Close Scope Z_scope.
