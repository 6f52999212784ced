(** How many slots the ring buffers of the queues of bfs and build get (C155). *)
From Verif Require Import Prelude IntModel DinicModel AhoSpec AhoModel AhoProps RingModel RoomModel RoomProof SlotModel SlotProof SlotBuildProof.

(** C155: with a ring buffer that refuses to grow beyond c slots bfs gives the same result, or panics alike, as without that limit, once c is at
    least 4 and 2(n - 2), n the length of h; 2(n - 3) is enough when t is a vertex other than s.  For arbitrary edges and lists g. *)
Theorem C155_bfs : forall c e g h s t, 4 <= c -> (2 * (length h - 2) <= c \/ 2 * (length h - 3) <= c /\ t < length h /\ t <> s) -> bfs_slot c e g h s t = bfs e g h s t.
Proof. intros c e g h s t H1 H. apply bfs_slots. unfold bfs_need. destruct (decide _); lia. Qed.
Print Assumptions C155_bfs.

(** The same for the flow of any state of a Dinic whose h has length n. *)
Theorem C155_flow : forall c T d s t, 4 <= c -> 2 * (length (dn_h d) - 3) <= c -> s <> t -> t < length (dn_h d) -> max_flow_slot c T d s t = dn_max_flow T d s t.
Proof. intros c T d s t H1 H2 H3 H4. apply flow_slots. unfold bfs_need. rewrite decide_True by auto. lia. Qed.
Print Assumptions C155_flow.

(** Less is not enough: for n = 2^i + 3 there is a graph of n vertices whose bfs needs all 2(n - 3) slots. *)
Theorem C155_tight : forall i n, 2 <= i -> n = 2 ^ i + 3 -> exists e g, (exists h, bfs e g (replicate n (-1)%Z) 0 (n - 1) = Ok (false, h)) /\
  forall c, c < 2 * (n - 3) -> bfs_slot c e g (replicate n (-1)%Z) 0 (n - 1) = Panic.
Proof.
  intros i n Hi ->. assert (H4 : 2 ^ 2 <= 2 ^ i) by (apply Nat.pow_le_mono_r; lia). change (2 ^ 2) with 4 in H4. set (m := 2 ^ i + 1). exists (star_e m), (star_g m). replace (2 ^ i + 3) with (m + 2) by lia. replace (m + 2 - 1) with (m + 1) by lia. split.
  - destruct (star_tight m 1 ltac:(lia)) as [Hh _]. replace (m + 2) with (S (S m)) by lia. replace (m + 1) with (S m) by lia. exact Hh.
  - intros c Hc. apply (star_slots i c Hi). rewrite Nat.pow_succ_r'. lia.
Qed.
Print Assumptions C155_tight.

(** A build that ends after at most f turns needs at most max(4, 2(f - 1)) slots, whatever the nodes. *)
Theorem C155_build : forall N c f a a', build_fuel N (S f) a = Ok a' -> 4 <= c -> 2 * (f - 1) <= c -> build_slot N c (S f) a = Ok a'.
Proof. intros N c f a a' E H1 H2. apply (under_build N c f ltac:(lia)). apply build_fits; [exact E|lia]. Qed.
Print Assumptions C155_build.
(** After any inserts that do not panic: 2(n - 2) slots for n nodes, and at least 4, are enough. *)
Theorem C155_inserts : forall off N n ins c, Forall (insertable off N) ins -> 4 <= c -> exists a a', aho_inserts off N (aho_new N n) ins = Ok a /\ aho_build N a = Ok a' /\
  (2 * (length (ah_nodes a) - 2) <= c -> build_slot N c (S (length (ah_nodes a))) a = Ok a').
Proof.
  intros off N n ins c H Hc. destruct (from_fits off N n ins 0 H) as (a & a' & E1 & E2 & _). destruct (from_fits off N n ins (length (ah_nodes a) - 1) H) as (b & b' & F1 & F2 & F3).
  rewrite E1 in F1. injection F1 as <-. rewrite E2 in F2. injection F2 as <-. exists a, a'. split; [exact E1|]. split; [exact E2|]. intros L. apply (under_build N c (length (ah_nodes a) - 1) ltac:(lia)). apply F3. lia.
Qed.
Print Assumptions C155_inserts.

(** Seven vertices, edges from 0 to 1, ..., 5: eight slots are needed and enough. *)
Example C155_nonvacuous :
  let calls c := d ← rfor [(0, 1, 2%Z); (0, 2, 2%Z); (0, 3, 2%Z); (0, 4, 2%Z); (0, 5, 2%Z); (2, 6, 1%Z)] (fun x d => dn_add_edge d x.1.1 x.1.2 x.2) (dn_new 7); x ← max_flow_slot c i32 d 0 6; Ok x.2 in
  calls 8 = Ok 1%Z /\ calls 7 = Panic.
Proof. vm_compute. auto. Qed.
(** The automaton of a, b, c, d, e has six nodes and five children of the root: eight slots are needed and enough. *)
Example C155_build_nonvacuous :
  let ins := [([97], 0); ([98], 1); ([99], 2); ([100], 3); ([101], 4)] in
  let calls c := a ← aho_inserts 97 5 (aho_new 5 5) ins; b ← build_slot 5 c (S (length (ah_nodes a))) a; Ok (length (ah_nodes b)) in
  Forall (insertable 97 5) ins /\ calls 8 = Ok 6 /\ calls 7 = Panic.
Proof. cbn zeta. split; [|vm_compute; auto]. repeat (apply Forall_cons; split; [|]); try apply Forall_nil; try exact I; (split; [discriminate|]); repeat constructor; lia. Qed.
