(** Two-colouring with a union-find (C129). *)
From stdpp Require Import relations.
From Verif Require Import Prelude ArraySpec UnionFindModel UnionFindRefProps LinkModel LinkSpec LinkProof BipModel BipSpec BipProof.

Lemma default_nth (cs : list bool) v x : cs !! v = Some x -> nth v cs false = x.
Proof. intros H. apply nth_lookup_Some. exact H. Qed.
(** C129: the client answers a proper colouring, or None if there is none; then some vertex is on a closed walk of odd length. *)
Theorem C129_two_colour : forall n es, (Z.of_nat (2 * n) < 2 ^ 64)%Z -> Forall (fun p : nat * nat => p.1 < n /\ p.2 < n) es ->
  exists r, two_colour n es = Ok r /\
    match r with
    | Some cs => length cs = n /\ proper es (fun v => nth v cs false) /\ forall k u, wk es k u u -> Nat.even k = true
    | None => (forall c, ~ proper es c) /\ exists v k, v < n /\ wk es k v v /\ Nat.odd k = true
    end.
Proof.
  intros n es Hn F. destruct (colour_ok n es F Hn) as (lab & LL & [(E & v & x & Hv & Hx & Hy)|(cs & E & L & H)]).
  - exists None. split; [exact E|]. assert (C : conn (double n es) v (v + n)) by (apply (la_conn _ _ _ LL v (v + n) x x Hx Hy); reflexivity).
    destruct (conn_walk n es F v (v + n) C) as (k & W & O). assert (B1 : base n v = v) by (unfold base; destruct (Nat.ltb_spec v n); lia). assert (B2 : base n (v + n) = v) by (unfold base; destruct (Nat.ltb_spec (v + n) n); lia).
    assert (S1 : side n v = false) by (unfold side; apply Nat.leb_gt; exact Hv). assert (S2 : side n (v + n) = true) by (unfold side; apply Nat.leb_le; lia). rewrite B1, B2 in W. rewrite S1, S2 in O. cbn in O. split.
    + intros c P. pose proof (walk_col es c k v v P W) as Q. rewrite O in Q. destruct (c v); discriminate.
    + exists v, k. auto.
  - exists (Some cs). split; [exact E|]. split; [exact L|]. assert (P : proper es (fun v => nth v cs false)).
    { intros u v Hin. pose proof Hin as Hr. rewrite Forall_forall in F. apply F in Hr as [Hu Hv]. cbn in Hu, Hv. destruct (H u Hu) as (x & y & X & Y & Ne & Cu). destruct (H v Hv) as (x' & y' & X' & Y' & Ne' & Cv).
      rewrite (default_nth _ _ _ Cu), (default_nth _ _ _ Cv).
      assert (x = y') as <- by (apply (la_conn _ _ _ LL u (v + n) x y' X Y'); apply rtc_once; left; apply double_elem; exists u, v; auto).
      assert (y = x') as <- by (apply (la_conn _ _ _ LL (u + n) v y x' Y X'); apply rtc_once; left; apply double_elem; exists u, v; auto).
      destruct (Nat.ltb_spec x y); destruct (Nat.ltb_spec y x); try discriminate; lia. }
    split; [exact P|]. intros k u W. pose proof (walk_col es _ k u u P W) as Q. rewrite <- Nat.negb_odd. destruct (Nat.odd k); [|reflexivity]. destruct (nth u cs false); discriminate.
Qed.
Print Assumptions C129_two_colour.

(** A square with a tail is coloured, a triangle and a loop are not. *)
Example C129_nonvacuous : two_colour 5 [(0, 1); (1, 2); (2, 3); (3, 0); (4, 0)] = Ok (Some [false; true; false; true; true]) /\
  two_colour 3 [(0, 1); (1, 2); (2, 0)] = Ok None /\ two_colour 2 [(1, 1)] = Ok None.
Proof. vm_compute. auto. Qed.
