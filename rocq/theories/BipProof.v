From stdpp Require Import relations.
From Verif Require Import Prelude ArraySpec UnionFindModel UnionFindProof UnionFindSpec UnionFindRefProps LinkModel LinkSpec LinkProof BipModel BipSpec.

Section bip.
  Context (n : nat) (es : list (nat * nat)) (F : Forall (fun p : nat * nat => p.1 < n /\ p.2 < n) es).
  Lemma double_elem x y : (x, y) ∈ double n es <-> exists u v, (u, v) ∈ es /\ (x = u /\ y = v + n \/ x = u + n /\ y = v).
  Proof.
    unfold double. clear F. induction es as [|[u v] l IH]; cbn [map concat].
    - split; [intros H; inversion H|]. intros (u & v & H & _). inversion H.
    - rewrite elem_of_app, IH. cbn [fst snd]. rewrite !elem_of_cons, elem_of_nil. split.
      + intros [[H|[H|[]]]|(u' & v' & H & K)]; [injection H as -> ->; exists u, v; split; [left|auto]|injection H as -> ->; exists u, v; split; [left|auto]|exists u', v'; split; [right; exact H|exact K]].
      + intros (u' & v' & H & K). apply elem_of_cons in H as [H|H]; [|right; exists u', v'; auto]. injection H as -> ->. left. destruct K as [[-> ->]|[-> ->]]; auto.
  Qed.
  Lemma double_range : Forall (fun p : nat * nat => p.1 < 2 * n /\ p.2 < 2 * n) (double n es).
  Proof.
    apply Forall_forall. intros [x y] H. apply double_elem in H as (u & v & H & K). rewrite Forall_forall in F. pose proof (F _ H) as [Hu Hv]. cbn in *. destruct K as [[-> ->]|[-> ->]]; lia.
  Qed.
  (** A proper colouring colours the two copies. *)
  Definition lift_col (c : nat -> bool) (x : nat) : bool := if x <? n then c x else negb (c (x - n)).
  Lemma lift_conn c x y : proper es c -> conn (double n es) x y -> lift_col c x = lift_col c y.
  Proof.
    intros P C. assert (K : forall a b, (a, b) ∈ double n es -> lift_col c a = lift_col c b).
    { intros a b H. apply double_elem in H as (u & v & H & K). rewrite Forall_forall in F. pose proof (F _ H) as [Hu Hv]. cbn in Hu, Hv. pose proof (P u v H) as Hne. unfold lift_col.
      destruct K as [[-> ->]|[-> ->]].
      - destruct (Nat.ltb_spec u n); [|lia]. destruct (Nat.ltb_spec (v + n) n); [lia|]. rewrite Nat.add_sub. destruct (c u), (c v); cbn; congruence.
      - destruct (Nat.ltb_spec (u + n) n); [lia|]. destruct (Nat.ltb_spec v n); [|lia]. rewrite Nat.add_sub. destruct (c u), (c v); cbn; congruence. }
    induction C as [|a b d H _ IH]; [reflexivity|]. rewrite <- IH. destruct H as [H|H]; [exact (K a b H)|symmetry; exact (K b a H)].
  Qed.
  Definition base (x : nat) : nat := if x <? n then x else x - n.
  Definition side (x : nat) : bool := n <=? x.
  Lemma conn_walk x y : conn (double n es) x y -> exists k, wk es k (base x) (base y) /\ Nat.odd k = xorb (side x) (side y).
  Proof.
    intros C. induction C as [x|a b d H _ (k & W & O)]; [exists 0; split; [constructor|destruct (side x); reflexivity]|].
    assert (K : forall a b, (a, b) ∈ double n es -> ((base a, base b) ∈ es) /\ side a = negb (side b)).
    { clear -F. intros a b H. apply double_elem in H as (u & v & H & K). rewrite Forall_forall in F. pose proof (F _ H) as [Hu Hv]. cbn in Hu, Hv. unfold base, side. destruct K as [[-> ->]|[-> ->]].
      - destruct (Nat.ltb_spec u n); [|lia]. destruct (Nat.ltb_spec (v + n) n); [lia|]. destruct (Nat.leb_spec n u); [lia|]. destruct (Nat.leb_spec n (v + n)); [|lia]. rewrite Nat.add_sub. auto.
      - destruct (Nat.ltb_spec (u + n) n); [lia|]. destruct (Nat.ltb_spec v n); [|lia]. destruct (Nat.leb_spec n v); [lia|]. destruct (Nat.leb_spec n (u + n)); [|lia]. rewrite Nat.add_sub. auto. }
    exists (S k). rewrite Nat.odd_succ, <- Nat.negb_odd, O. destruct H as [H|H]; destruct (K _ _ H) as [K1 K2]; (split; [econstructor; [|exact W]; auto|]).
    - rewrite K2. destruct (side b), (side d); reflexivity.
    - rewrite K2. destruct (side a), (side d); reflexivity.
  Qed.
  Lemma walk_col c k u w : proper es c -> wk es k u w -> c w = xorb (c u) (Nat.odd k).
  Proof.
    intros P W. induction W as [u|k u v w H _ IH]; [destruct (c u); reflexivity|]. rewrite IH, Nat.odd_succ, <- Nat.negb_odd. assert (c u <> c v) by (destruct H as [H|H]; [exact (P _ _ H)|intros Q; exact (P _ _ H (eq_sym Q))]).
    destruct (c u), (c v), (Nat.odd k); cbn; congruence.
  Qed.

  Lemma find_lab u lab i x : Lab (2 * n) u lab -> lab !! i = Some x -> exists u', uf_find u i = Ok (u', x) /\ Lab (2 * n) u' lab.
  Proof.
    intros L Hx. pose proof (query_step (2 * n) u lab (UfFind i) L eq_refl I) as Q. cbn [uf_step uf_spec_step] in Q. rewrite Hx in Q. destruct (uf_find u i) as [[u' r]| |]; cbn [mbind res_bind] in Q; [|discriminate|contradiction].
    destruct Q as (Q & L' & _). injection Q as <-. eauto.
  Qed.
  Context (Hn : (Z.of_nat (2 * n) < 2 ^ 64)%Z).
  Lemma colour_ok : exists lab, labels (2 * n) (double n es) lab /\
    ((two_colour n es = Ok None /\ exists v x, v < n /\ lab !! v = Some x /\ lab !! (v + n) = Some x) \/
     exists cs, two_colour n es = Ok (Some cs) /\ length cs = n /\ forall v, v < n -> exists x y, lab !! v = Some x /\ lab !! (v + n) = Some y /\ x <> y /\ cs !! v = Some (x <? y)).
  Proof.
    destruct (link_all (2 * n) Hn (double n es) double_range) as (u & lab & bs & E & _ & (L & _ & LL) & _). exists lab. split; [exact LL|]. unfold two_colour. rewrite E. cbn [mbind res_bind fst].
    assert (Hlab : forall a, a < 2 * n -> exists r, lab !! a = Some r) by (intros a Ha; apply lookup_lt_is_Some_2; rewrite (la_len _ _ _ LL); exact Ha).
    set (body := fun v st => _).
    destruct (rfor_range_inv (fun k (st : uf * option (list bool)) => Lab (2 * n) st.1 lab /\
      match st.2 with
      | None => exists v x, v < n /\ lab !! v = Some x /\ lab !! (v + n) = Some x
      | Some cs => length cs = k /\ forall v, v < k -> exists x y, lab !! v = Some x /\ lab !! (v + n) = Some y /\ x <> y /\ cs !! v = Some (x <? y)
      end) 0 n body (u, Some [])) as ([u' o] & Er & L' & P).
    - lia.
    - cbn. split; [exact L|]. split; [reflexivity|]. intros v Hv. lia.
    - intros k [u1 [cs|]] Hk [L1 P]; unfold body; cbn [fst snd] in *.
      + destruct (Hlab k ltac:(lia)) as [x Hx]. destruct (Hlab (k + n) ltac:(lia)) as [y Hy]. destruct (find_lab u1 lab k x L1 Hx) as (u2 & -> & L2). cbn [mbind res_bind]. destruct (find_lab u2 lab (k + n) y L2 Hy) as (u3 & -> & L3). cbn [mbind res_bind].
        eexists. split; [reflexivity|]. cbn [fst snd]. split; [exact L3|]. destruct P as [Pl P]. destruct (Nat.eqb_spec x y) as [->|Hne].
        * exists k, y. split; [lia|]. auto.
        * split; [rewrite app_length, Pl; cbn; lia|]. intros v Hv. destruct (decide (v = k)) as [->|Hvk].
          -- exists x, y. split; [exact Hx|]. split; [exact Hy|]. split; [exact Hne|]. rewrite lookup_app_r, Pl, Nat.sub_diag by lia. reflexivity.
          -- destruct (P v ltac:(lia)) as (x' & y' & Q1 & Q2 & Q3 & Q4). exists x', y'. split; [exact Q1|]. split; [exact Q2|]. split; [exact Q3|]. apply lookup_app_l_Some. exact Q4.
      + eexists. split; [reflexivity|]. cbn. auto.
    - change (seq 0 (n - 0)) with (range 0 n) in Er. rewrite Er. cbn [mbind res_bind snd fst] in *. destruct o as [cs|]; [right; exists cs|left]; auto.
  Qed.
End bip.
