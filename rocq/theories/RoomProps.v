(** How long the queues of bfs and build get (C151). *)
From Verif Require Import Prelude IntModel DinicModel AhoSpec AhoModel AhoProps RoomModel RoomProof.

(** C151: with a queue that refuses more than k entries bfs gives the same result, or panics alike, as without that limit, once k is at
    least 1 and n - 1, n the length of h; n - 2 is enough when t is a vertex other than s.  For arbitrary edges and lists g. *)
Theorem C151_bfs : forall k e g h s t, 1 <= k -> (length h <= k + 1 \/ length h <= k + 2 /\ t < length h /\ t <> s) -> bfs_room k e g h s t = bfs e g h s t.
Proof. intros k e g h s t H1 H. apply bfs_fits. unfold bfs_need. destruct (decide _); lia. Qed.
Print Assumptions C151_bfs.

(** Less is not enough: for every m there is a graph of m + 2 vertices whose bfs fills a queue of m entries. *)
Theorem C151_tight : forall m k, 1 <= k < m -> exists e g, (exists h, bfs e g (replicate (m + 2) (-1)%Z) 0 (m + 1) = Ok (false, h)) /\ bfs_room k e g (replicate (m + 2) (-1)%Z) 0 (m + 1) = Panic.
Proof. intros m k H. exists (star_e m), (star_g m). replace (m + 2) with (S (S m)) by lia. replace (m + 1) with (S m) by lia. apply star_tight. exact H. Qed.
Print Assumptions C151_tight.

(** Any calls of add_edge and get_max_flow(s, t), s <> t, on Dinic::new(n): all answers and panics are those with a queue of max(1, n - 2) entries. *)
Theorem C151_flow : forall T n k ops, 1 <= k -> n <= k + 2 -> (forall s t, DnFlow s t ∈ ops -> s <> t) ->
  rfor ops (fun o x => y ← dn_step_room k T x.1 o; Ok (y.1, x.2 ++ [y.2])) (dn_new n, []) = rfor ops (fun o x => y ← dn_step T x.1 o; Ok (y.1, x.2 ++ [y.2])) (dn_new n, []).
Proof. intros T n k ops H1 H2 Ho. apply (history_fits T n); [lia|exact Ho|reflexivity|apply replicate_length]. Qed.
Print Assumptions C151_flow.

(** A build that ends after at most f turns never has more than f entries in its queue, whatever the nodes. *)
Theorem C151_build : forall N k f a a', build_fuel N (S f) a = Ok a' -> f <= k -> build_room N k (S f) a = Ok a'.
Proof. intros N k f a a' E H. apply build_fits; [exact E|lia]. Qed.
Print Assumptions C151_build.
(** After any inserts that do not panic: one entry for every node but the root is enough. *)
Theorem C151_inserts : forall off N n ins k, Forall (insertable off N) ins -> exists a a', aho_inserts off N (aho_new N n) ins = Ok a /\ aho_build N a = Ok a' /\
  (length (ah_nodes a) <= k + 1 -> build_room N k (S (length (ah_nodes a))) a = Ok a').
Proof. intros off N n ins k H. destruct (from_fits off N n ins k H) as (a & a' & E1 & E2 & E3). exists a, a'. split; [exact E1|]. split; [exact E2|]. intros L. apply E3. lia. Qed.
Print Assumptions C151_inserts.

(** Five vertices, edges from 0 to 1, 2, 3: three entries are needed and enough; likewise for
    the automaton of a, b and ca, whose root has three children. *)
Example C151_nonvacuous :
  let calls k := rfor [DnEdge 0 1 2%Z; DnEdge 0 2 2%Z; DnEdge 0 3 2%Z; DnEdge 2 4 1%Z; DnFlow 0 4] (fun o x => y ← dn_step_room k i32 x.1 o; Ok (y.1, x.2 ++ [y.2])) (dn_new 5, []) in
  (x ← calls 3; Ok x.2) = Ok [None; None; None; None; Some 1%Z] /\ calls 2 = Panic /\
  (a ← aho_inserts 97 3 (aho_new 3 3) [([97], 0); ([98], 1); ([99; 97], 2)]; b ← build_room 3 3 (S (length (ah_nodes a))) a; c ← aho_build 3 a; Ok (bool_decide (length (ah_nodes b) = 5), bool_decide (map nd_back (ah_nodes b) = map nd_back (ah_nodes c)))) = Ok (true, true) /\
  (a ← aho_inserts 97 3 (aho_new 3 3) [([97], 0); ([98], 1); ([99; 97], 2)]; build_room 3 2 9 a) = Panic.
Proof. vm_compute. auto. Qed.
