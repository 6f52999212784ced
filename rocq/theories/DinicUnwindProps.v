(** Properties of Dinic after caught panics (C84). *)
From Verif Require Import Prelude ArraySpec IntModel Unwind DinicModel DinicSpec DinicProof DinicUnwindModel DinicUnwindCode DinicUnwindSpec DinicUnwindProof.
Open Scope Z_scope.

(** C84: the programs that write step by step are those of DinicModel.v. *)
Theorem C84_same_code : forall T o d, strip (dnu_step T o d) = dn_step T d o.
Proof. exact strip_dn_step. Qed.
Print Assumptions C84_same_code.

(** C84: any history without half edges, every panic caught and the network used further: only refused calls and answers beyond
    the range of the type unwind, and every later answer is the most that can still be sent. *)
Theorem C84_dinic : forall T n ops, 0 < it_max T -> it_min T <= 0 -> Z.of_nat n <= 2 ^ 31 - 1 -> Forall (no_half_edge T n) ops ->
  exists d outs, urun (dnu_step T) (dn_new n) ops = Ok (d, outs) /\ dn_after T n [] [] ops outs.
Proof. intros T n ops HT HTm Hn Hops. apply (caught_history T n HT HTm Hn ops [] (dn_new n)); auto using dn_new_inv. Qed.
Print Assumptions C84_dinic.

(** C84: an edge whose head is out of range is refused half way.  If its capacity is positive, no get_max_flow from its tail
    ever returns again, whatever is called in between and however long the calls are followed (k turns of the outer loop). *)
Theorem C84_half_edge : forall k T n ops1 u v c ops2 d outs, 0 <= it_max T -> (u < n)%nat -> (n <= v)%nat -> 0 < c ->
  urun (dnu_step_for k T) (dn_new n) (ops1 ++ DnEdge u v c :: ops2) = Ok (d, outs) ->
  Forall2 (fun o out => match o with DnFlow s _ => s = u -> out = None | DnEdge _ _ _ => True end) ops2 (drop (S (length ops1)) outs).
Proof.
  intros k T n ops1 u v c ops2 d outs HT Hu Hv Hc E. apply (half_history k T n u v c ops2 HT Hu Hv Hc ops1 (dn_new n) d outs); [|exact E].
  split; apply replicate_length.
Qed.
Print Assumptions C84_half_edge.

(** C84: elsewhere the answers are wrong: the half edge shifts the indices, so that `j ^ 1` is no longer the reverse edge.  The
    edge from 3 to 5 is refused; then 7 are sent from 1 to 2, and 7 are sent from 1 to 0, against the only edge between them. *)
Theorem C84_half_edge_wrong : let es := [(0%nat, 1%nat, 7); (1%nat, 2%nat, 7)] in
  (exists d, urun (dnu_step i64) (dn_new 4) [DnEdge 3 5 1; DnEdge 0 1 7; DnEdge 1 2 7; DnFlow 1 2; DnFlow 1 0] =
     Ok (d, [None; Some None; Some None; Some (Some 7); Some (Some 7)])) /\
  (forall fs fs' v, reroute es 1 2 [0; 0] fs 7 -> reroute es 1 0 fs fs' v -> v <= 0).
Proof.
  cbn zeta. split; [eexists; vm_compute; reflexivity|].
  intros fs fs' v [B1 H1] [B2 H2]. inversion B1 as [|? f0 ? ? _ B1']; subst. inversion B1' as [|? f1 ? ? _ B1'']; subst. inversion B1''; subst.
  inversion B2 as [|? g0 ? ? C0 B2']; subst. inversion B2' as [|? g1 ? ? C1 B2'']; subst. inversion B2''; subst.
  pose proof (H1 0%nat) as X0. pose proof (H2 0%nat) as Y0. clear H1 H2. unfold net_out in X0, Y0. cbn in C0, X0, Y0.
  change (0 =? 0)%nat with true in *. change (1 =? 0)%nat with false in *. change (2 =? 0)%nat with false in *. cbn iota in X0, Y0. lia.
Qed.
Print Assumptions C84_half_edge_wrong.

(** Three bits, values up to 3: three edges of capacity 3 from 0 to 1 overflow; what was sent from 0 to 1 stays sent. *)
Example C84_nonvacuous :
  let T := ITy true 3 in
  let ops := [DnEdge 0 1 3; DnEdge 0 1 3; DnEdge 0 1 3; DnEdge 7 0 1; DnFlow 0 9; DnFlow 0 1; DnFlow 0 1; DnFlow 1 1; DnEdge 1 2 2; DnFlow 0 2; DnFlow 1 0] in
  Forall (no_half_edge T 3) ops /\
  fmap snd (urun (dnu_step T) (dn_new 3) ops) = Ok [Some None; Some None; Some None; None; None; None; Some (Some 3); Some (Some 0); Some None; Some (Some 0); None].
Proof. cbn zeta. split; [repeat constructor; cbn; lia|vm_compute; reflexivity]. Qed.
(** A history with a half edge: 0 to 1 still answers, 2 to 0 never does. *)
Example C84_half_nonvacuous :
  fmap snd (urun (dnu_step_for 10 i64) (dn_new 3) [DnEdge 0 1 7; DnEdge 2 5 1; DnEdge 2 0 4; DnFlow 2 0; DnFlow 0 1; DnFlow 2 2]) =
    Ok [Some None; None; Some None; None; Some (Some 7); None].
Proof. vm_compute. reflexivity. Qed.
Close Scope Z_scope.
