(** The queue of bfs and build: VecDeque as a ring buffer (C126). *)
From Verif Require Import Prelude IntModel DinicModel AhoModel AhoSpec RingModel RingSpec RingProof.

(** C126: pushes and pops in any order never leave the buffer and never read an empty or moved slot; the pops answer in the order of the
    pushes; rg_len is the number of values not yet popped. *)
Theorem C126_fifo : forall (A : Type) (ops : list (q_op A)), exists r outs left, ring_run ops = Ok (r, outs) /\ fifo ops outs /\ pushed ops = popped outs ++ left /\ rg_len r = length left.
Proof. intros A ops. destruct (run_ok ops) as (r & outs & l & E & H & _ & P & F). exists r, outs, l. split; [exact E|]. split; [exact F|]. split; [exact P|]. exact (h_len _ _ H). Qed.
Print Assumptions C126_fifo.

(** Growing copies at most 3 slots per push in total; a queue of never more than m values has at most max(4, 2m) slots. *)
Theorem C126_cost : forall (A : Type) (ops : list (q_op A)) r outs, ring_run ops = Ok (r, outs) -> rg_cost r <= 3 * length (pushed ops) /\
  forall m, (forall ops1 ops2 r1 outs1, ops = ops1 ++ ops2 -> ring_run ops1 = Ok (r1, outs1) -> rg_len r1 <= m) -> rg_cap r <= Nat.max 4 (2 * m).
Proof.
  intros A ops r outs E. split.
  - destruct (run_ok ops) as (r' & outs' & l & E' & H & (C1 & C2 & C3) & _). rewrite E in E'. injection E' as <- <-. lia.
  - intros m Hm. exact (run_cap ops m Hm r outs E).
Qed.
Print Assumptions C126_cost.

(** bfs, get_max_flow and build give the same result, or panic, over the ring buffer and over the list of their models. *)
Theorem C126_bfs : forall e g h s t, bfs_ring e g h s t = bfs e g h s t.
Proof. exact bfs_same. Qed.
Print Assumptions C126_bfs.
Theorem C126_flow : forall T d s t, max_flow_ring T d s t = dn_max_flow T d s t.
Proof. exact flow_same. Qed.
Print Assumptions C126_flow.
Theorem C126_build : forall N fuel a, build_fuel_ring N fuel a = build_fuel N fuel a.
Proof. exact build_same. Qed.
Print Assumptions C126_build.

(** Six values pushed after two pops: the buffer of 4 grows when the queue is wrapped around (both ways of moving), and answers stay in order. *)
Example C126_nonvacuous :
  (x ← ring_run (map QPush [1; 2; 3; 4] ++ [QPop; QPop; QPop] ++ map QPush [5; 6; 7; 8]); Ok (x.2, rg_buf x.1, rg_head x.1, rg_len x.1))
    = Ok ([Some 1; Some 2; Some 3], [Some 5; Some 6; Some 7; Some 8; None; None; None; Some 4], 7, 5) /\
  (x ← ring_run (map QPush [1; 2; 3; 4] ++ [QPop] ++ map QPush [5; 6]); Ok (rg_buf x.1, rg_head x.1, rg_cost x.1))
    = Ok ([None; Some 2; Some 3; Some 4; Some 5; Some 6; None; None], 1, 5) /\
  (x ← ring_run [QPop; QPush 1; QPop; QPop]; Ok x.2) = Ok [None; Some 1; None].
Proof. vm_compute. auto. Qed.
Example C126_flow_nonvacuous : (d ← rfor [(0, 1, 2%Z); (0, 2, 3%Z); (1, 3, 2%Z); (2, 3, 1%Z)] (fun x d => dn_add_edge d x.1.1 x.1.2 x.2) (dn_new 4); x ← max_flow_ring i32 d 0 3; Ok x.2) = Ok 3%Z.
Proof. vm_compute. reflexivity. Qed.
