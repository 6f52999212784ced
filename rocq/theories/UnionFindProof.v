From Coq Require Import Sorting.Sorted.
From Verif Require Import Prelude ArraySpec UnionFindModel.

(** [rootof fa d i r]: following parents from i reaches the self-parented r after d steps. *)
Inductive rootof (fa : list nat) : nat -> nat -> nat -> Prop :=
| ro_root i : fa !! i = Some i -> rootof fa 0 i i
| ro_step d i j r : fa !! i = Some j -> j <> i -> rootof fa d j r -> rootof fa (S d) i r.

Lemma rootof_det fa d i r : rootof fa d i r -> forall d' r', rootof fa d' i r' -> d = d' /\ r = r'.
Proof.
  induction 1 as [i Hi|d i j r Hi Hne Hr IH]; intros d' r' H'; inversion H' as [i' Hi'|d1 i1 j1 r1 Hi1 Hne1 Hr1]; subst.
  - auto.
  - congruence.
  - congruence.
  - assert (j = j1) as -> by congruence. destruct (IH _ _ Hr1) as [-> ->]. auto.
Qed.

Lemma rootof_root fa d i r : rootof fa d i r -> fa !! r = Some r.
Proof. induction 1; assumption. Qed.

Lemma rootof_lt fa d i r : rootof fa d i r -> i < length fa /\ r < length fa.
Proof.
  intros H. split.
  - destruct H; eapply lookup_lt_Some; eassumption.
  - apply rootof_root in H. eapply lookup_lt_Some; eassumption.
Qed.

(** The path visits distinct nodes, so its length is below the number of nodes. *)
Lemma rootof_path fa d i r : rootof fa d i r ->
  exists p, length p = S d /\ (forall k x, p !! k = Some x -> exists r', rootof fa (d - k) x r').
Proof.
  induction 1 as [i Hi|d i j r Hi Hne Hr (p & Lp & Hp)].
  - exists [i]. split; [reflexivity|]. intros k x Hk.
    assert (k < 1) by (apply lookup_lt_Some in Hk; exact Hk). assert (k = 0) as -> by lia.
    injection Hk as <-. exists i. constructor. exact Hi.
  - exists (i :: p). split; [cbn; lia|]. intros [|k] x Hk.
    + injection Hk as <-. exists r. econstructor; eassumption.
    + cbn in Hk. destruct (Hp k x Hk) as [r' Hr']. exists r'. exact Hr'.
Qed.

Lemma rootof_depth fa d i r : rootof fa d i r -> d < length fa.
Proof.
  intros H. destruct (rootof_path fa d i r H) as (p & Lp & Hp).
  assert (List.NoDup p) as ND.
  { apply NoDup_ListNoDup. apply NoDup_alt. intros k1 k2 x H1 H2.
    destruct (Hp k1 x H1) as [r1 Hr1]. destruct (Hp k2 x H2) as [r2 Hr2].
    destruct (rootof_det _ _ _ _ Hr1 _ _ Hr2) as [E _].
    apply lookup_lt_Some in H1. apply lookup_lt_Some in H2. lia. }
  assert (incl p (seq 0 (length fa))) as Inc.
  { intros x Hx. apply elem_of_list_In, elem_of_list_lookup in Hx as [k Hk].
    destruct (Hp k x Hk) as [r' Hr']. apply in_seq. apply rootof_lt in Hr'. lia. }
  pose proof (NoDup_incl_length ND Inc) as Hlen. rewrite seq_length in Hlen. lia.
Qed.

Definition root fa i r := exists d, rootof fa d i r.

Lemma root_det fa i r r' : root fa i r -> root fa i r' -> r = r'.
Proof. intros [d H] [d' H']. apply (rootof_det _ _ _ _ H _ _ H'). Qed.

Lemma root_self fa i r : root fa i r -> root fa r r.
Proof. intros [d H]. exists 0. constructor. apply (rootof_root _ _ _ _ H). Qed.

(** Every node has a root. *)
Definition acyclic (fa : list nat) : Prop := forall i, i < length fa -> exists r, root fa i r.

(** Same representatives. *)
Definition same_roots (fa fa' : list nat) : Prop :=
  length fa' = length fa /\ forall i r, root fa i r -> root fa' i r.

Lemma same_roots_refl fa : same_roots fa fa.
Proof. split; auto. Qed.

Lemma same_roots_trans fa1 fa2 fa3 : same_roots fa1 fa2 -> same_roots fa2 fa3 -> same_roots fa1 fa3.
Proof. intros [H1 H2] [H3 H4]. split; [lia|auto]. Qed.

Lemma same_roots_acyclic fa fa' : same_roots fa fa' -> acyclic fa -> acyclic fa'.
Proof. intros [H1 H2] H i Hi. rewrite H1 in Hi. destruct (H i Hi) as [r Hr]. eauto. Qed.

Lemma same_roots_iff fa fa' i r : acyclic fa -> same_roots fa fa' -> (root fa i r <-> root fa' i r).
Proof.
  intros HA [H1 H2]. split; [apply H2|]. intros H.
  destruct (HA i) as [r' Hr'].
  { destruct H as [d H]. apply rootof_lt in H. lia. }
  rewrite (root_det _ _ _ _ H (H2 _ _ Hr')). exact Hr'.
Qed.

Lemma compress fa i r : root fa i r -> i <> r -> same_roots fa (<[i := r]> fa).
Proof.
  intros Hi Hne. split; [apply insert_length|].
  assert (i < length fa) as Hlt by (destruct Hi as [d Hd]; apply rootof_lt in Hd; lia).
  intros j s [d Hd]. induction Hd as [j Hj|d j k s Hj Hjk Hd IH].
  - exists 0. constructor. destruct (decide (i = j)) as [->|].
    + exfalso. apply Hne. apply (root_det fa j); [exists 0; constructor; exact Hj|exact Hi].
    + rewrite list_lookup_insert_ne by assumption. exact Hj.
  - destruct (decide (i = j)) as [->|Hij].
    + assert (s = r) as ->.
      { apply (root_det fa j); [|exact Hi]. exists (S d). econstructor; eassumption. }
      exists 1. econstructor; [apply list_lookup_insert; exact Hlt|congruence|].
      constructor. rewrite list_lookup_insert_ne by assumption.
      destruct Hi as [d' Hi]. apply (rootof_root _ _ _ _ Hi).
    + destruct IH as [d' IH]. exists (S d'). econstructor; [|exact Hjk|exact IH].
      rewrite list_lookup_insert_ne by assumption. exact Hj.
Qed.

Lemma find_fa_ok fa : forall fuel d i r, rootof fa d i r -> d < fuel ->
  exists fa', uf_find_fa fuel fa i = Ok (fa', r) /\ same_roots fa fa'.
Proof.
  induction fuel as [|fuel IH]; intros d i r H Hd; [lia|].
  inversion H as [i' Hi'|d1 i1 j1 r1 Hi1 Hne1 Hr1]; subst; cbn [uf_find_fa].
  - rewrite (vget_ok _ _ _ Hi'). cbn [mbind res_bind]. rewrite Nat.eqb_refl.
    exists fa. split; [reflexivity|apply same_roots_refl].
  - rewrite (vget_ok _ _ _ Hi1). cbn [mbind res_bind].
    destruct (Nat.eqb_spec j1 i); [contradiction|].
    destruct (IH d1 j1 r Hr1 ltac:(lia)) as (fa' & -> & Hs). cbn [mbind res_bind].
    pose proof (rootof_lt _ _ _ _ H) as [Hi _].
    rewrite vset_ok by (destruct Hs; lia). cbn [mbind res_bind].
    rewrite (vget_ok _ i r) by (apply list_lookup_insert; destruct Hs; lia). cbn [mbind res_bind].
    eexists. split; [reflexivity|]. apply (same_roots_trans _ fa'); [exact Hs|].
    apply compress.
    + apply Hs. eexists. exact H.
    + intros ->. apply rootof_root in H. congruence.
Qed.

(** Invariant of every reachable state. *)
Record UInv (n : nat) (u : uf) : Prop := {
  ui_n : uf_n u = n;
  ui_fa : length (uf_fa u) = n;
  ui_sz : length (uf_sz u) = n;
  ui_ac : acyclic (uf_fa u) }.

Lemma find_ok n u i : UInv n u -> i < n ->
  exists u' r, uf_find u i = Ok (u', r) /\ root (uf_fa u) i r /\ r < n /\
    same_roots (uf_fa u) (uf_fa u') /\ uf_sz u' = uf_sz u /\ UInv n u'.
Proof.
  intros I Hi. destruct (ui_ac _ _ I i) as [r [d Hd]]; [rewrite (ui_fa _ _ I); exact Hi|].
  unfold uf_find. destruct (find_fa_ok (uf_fa u) (S (length (uf_fa u))) d i r Hd) as (fa' & -> & Hs).
  { apply rootof_depth in Hd. lia. }
  cbn [mbind res_bind]. eexists _, r. split; [reflexivity|]. cbn [uf_fa uf_sz].
  split; [exists d; exact Hd|]. split; [apply rootof_lt in Hd; rewrite (ui_fa _ _ I) in Hd; lia|].
  split; [exact Hs|]. split; [reflexivity|].
  constructor; cbn [uf_n uf_fa uf_sz].
  - apply (ui_n _ _ I).
  - destruct Hs as [-> _]. apply (ui_fa _ _ I).
  - apply (ui_sz _ _ I).
  - apply (same_roots_acyclic _ _ Hs), (ui_ac _ _ I).
Qed.

Lemma find_panic n u i : UInv n u -> n <= i -> uf_find u i = Panic.
Proof.
  intros I Hi. unfold uf_find. cbn [uf_find_fa]. rewrite vget_panic; [reflexivity|].
  rewrite (ui_fa _ _ I). exact Hi.
Qed.

Lemma new_inv n : UInv n (uf_new n).
Proof.
  constructor; cbn [uf_new uf_n uf_fa uf_sz].
  - reflexivity.
  - apply seq_length.
  - apply replicate_length.
  - intros i Hi. rewrite seq_length in Hi. exists i, 0. constructor. apply lookup_seq. lia.
Qed.

Lemma is_same_ok n u x y : UInv n u -> x < n -> y < n ->
  exists u' b, uf_is_same u x y = Ok (u', b) /\ same_roots (uf_fa u) (uf_fa u') /\ uf_sz u' = uf_sz u /\ UInv n u' /\
    (b = true <-> exists r, root (uf_fa u) x r /\ root (uf_fa u) y r).
Proof.
  intros I Hx Hy. unfold uf_is_same. rewrite (ui_n _ _ I).
  destruct (Nat.ltb_spec x n); [|lia]. destruct (Nat.ltb_spec y n); [|lia]. cbn [rassert mbind res_bind].
  destruct (find_ok n u x I Hx) as (u1 & rx & -> & Rx & _ & S1 & Z1 & I1). cbn [mbind res_bind].
  destruct (find_ok n u1 y I1 Hy) as (u2 & ry & -> & Ry & _ & S2 & Z2 & I2). cbn [mbind res_bind].
  apply (same_roots_iff (uf_fa u) (uf_fa u1)) in Ry; [|apply (ui_ac _ _ I)|exact S1].
  eexists u2, _. split; [reflexivity|]. split; [apply (same_roots_trans _ _ _ S1 S2)|].
  split; [congruence|]. split; [exact I2|]. rewrite Nat.eqb_eq. split.
  - intros ->. eauto.
  - intros (r & H1 & H2). rewrite (root_det _ _ _ _ Rx H1), (root_det _ _ _ _ Ry H2). reflexivity.
Qed.


Lemma link_avoid fa x y rx : root fa x rx -> forall i ri, root fa i ri -> rx <> ri ->
  root (<[x := y]> fa) i ri.
Proof.
  intros Rx i ri [d Hi] Hne. induction Hi as [i Hi|d i k s Hi Hik Hd IH].
  - exists 0. constructor. rewrite list_lookup_insert_ne; [exact Hi|].
    intros ->. apply Hne. apply (root_det fa i); [exact Rx|]. exists 0. constructor. exact Hi.
  - destruct (IH Hne) as [d' IH']. exists (S d'). econstructor; [|exact Hik|exact IH'].
    rewrite list_lookup_insert_ne; [exact Hi|].
    intros ->. apply Hne. apply (root_det fa i); [exact Rx|]. exists (S d). econstructor; eassumption.
Qed.

Lemma link_acyclic fa x y rx ry : acyclic fa -> root fa x rx -> root fa y ry -> rx <> ry ->
  acyclic (<[x := y]> fa).
Proof.
  intros HA Rx Ry Hne i Hi. rewrite insert_length in Hi.
  pose proof (link_avoid fa x y rx Rx y ry Ry Hne) as [dy Hy].
  assert (x < length fa) as Hx by (destruct Rx as [d Rx]; apply rootof_lt in Rx; lia).
  assert (y <> x) as Hyx by (intros ->; apply Hne; apply (root_det fa x); assumption).
  destruct (HA i Hi) as [ri [d Hd]]. clear Hi.
  induction Hd as [i Hd|d i k s Hd Hik Hk IH].
  - destruct (decide (i = x)) as [->|Hix].
    + exists ry, (S dy). econstructor; [apply list_lookup_insert; exact Hx|exact Hyx|exact Hy].
    + exists i, 0. constructor. rewrite list_lookup_insert_ne by congruence. exact Hd.
  - destruct (decide (i = x)) as [->|Hix].
    + exists ry, (S dy). econstructor; [apply list_lookup_insert; exact Hx|exact Hyx|exact Hy].
    + destruct IH as [r [d' IH]]. exists r, (S d'). econstructor; [|exact Hik|exact IH].
      rewrite list_lookup_insert_ne by congruence. exact Hd.
Qed.

(** When x is itself a root, exactly x's tree moves below y's root. *)
Lemma link_merge fa x y ry i ri : root fa x x -> root fa y ry -> x <> ry -> root fa i ri ->
  root (<[x := y]> fa) i (if decide (ri = x) then ry else ri).
Proof.
  intros Rx Ry Hne [d Hi].
  pose proof (link_avoid fa x y x Rx y ry Ry Hne) as [dy Hy].
  assert (x < length fa) as Hx by (destruct Rx as [d' Rx]; apply rootof_lt in Rx; lia).
  assert (y <> x) as Hyx by (intros ->; apply Hne; apply (root_det fa x); assumption).
  induction Hi as [i Hd|d i k s Hd Hik Hk IH].
  - destruct (decide (i = x)) as [->|Hix].
    + exists (S dy). econstructor; [apply list_lookup_insert; exact Hx|exact Hyx|exact Hy].
    + exists 0. constructor. rewrite list_lookup_insert_ne by congruence. exact Hd.
  - destruct (decide (i = x)) as [->|Hix].
    + exfalso. destruct Rx as [d' Rx]. apply rootof_root in Rx. congruence.
    + destruct IH as [d' IH]. exists (S d'). econstructor; [|exact Hik|exact IH].
      rewrite list_lookup_insert_ne by congruence. exact Hd.
Qed.

(** In general a vertex keeps its root or moves from x's root to y's. *)
Lemma link_either fa x y rx ry i ri : root fa x rx -> root fa y ry -> rx <> ry -> root fa i ri ->
  root (<[x := y]> fa) i ri \/ (ri = rx /\ root (<[x := y]> fa) i ry).
Proof.
  intros Rx Ry Hne [d Hi].
  pose proof (link_avoid fa x y rx Rx y ry Ry Hne) as [dy Hy].
  assert (x < length fa) as Hx by (destruct Rx as [d' Rx]; apply rootof_lt in Rx; lia).
  assert (y <> x) as Hyx by (intros ->; apply Hne; apply (root_det fa x); assumption).
  assert (Hroot : root (<[x := y]> fa) x ry).
  { exists (S dy). econstructor; [apply list_lookup_insert; exact Hx|exact Hyx|exact Hy]. }
  induction Hi as [i Hd|d i k s Hd Hik Hk IH].
  - destruct (decide (i = x)) as [->|Hix].
    + right. split; [|exact Hroot]. apply (root_det fa x); [exists 0; constructor; exact Hd|exact Rx].
    + left. exists 0. constructor. rewrite list_lookup_insert_ne by congruence. exact Hd.
  - destruct (decide (i = x)) as [->|Hix].
    + right. split; [|exact Hroot]. apply (root_det fa x); [exists (S d); econstructor; eassumption|exact Rx].
    + destruct IH as [[d' IH]|[E [d' IH]]]; [left|right; split; [exact E|]]; exists (S d'); (econstructor; [|exact Hik|exact IH]);
        rewrite list_lookup_insert_ne by congruence; exact Hd.
Qed.

Lemma join_ok n u x y : UInv n u -> x < n -> y < n ->
  uf_join u x y = Panic \/
  exists u' b rx ry, uf_join u x y = Ok (u', b) /\ UInv n u' /\
    root (uf_fa u) x rx /\ root (uf_fa u) y ry /\
    (b = true <-> rx <> ry) /\
    (if b then exists fa1 sx sy, same_roots (uf_fa u) fa1 /\ uf_fa u' = <[x := y]> fa1 /\
                 uf_sz u !! x = Some sx /\ uf_sz u !! y = Some sy /\ uf_sz u' = <[y := (sy + sx)%Z]> (uf_sz u)
     else same_roots (uf_fa u) (uf_fa u') /\ uf_sz u' = uf_sz u).
Proof.
  intros I Hx Hy. unfold uf_join. rewrite (ui_n _ _ I).
  destruct (Nat.ltb_spec x n); [|lia]. destruct (Nat.ltb_spec y n); [|lia]. cbn [rassert mbind res_bind].
  destruct (find_ok n u x I Hx) as (u1 & rx & -> & Rx & _ & S1 & Z1 & I1). cbn [mbind res_bind].
  destruct (find_ok n u1 y I1 Hy) as (u2 & ry & -> & Ry & _ & S2 & Z2 & I2). cbn [mbind res_bind].
  apply (same_roots_iff (uf_fa u) (uf_fa u1)) in Ry; [|apply (ui_ac _ _ I)|exact S1].
  pose proof (same_roots_trans _ _ _ S1 S2) as S12.
  destruct (Nat.eqb_spec rx ry) as [E|Hne].
  - right. exists u2, false, rx, ry. split; [reflexivity|]. split; [exact I2|].
    split; [exact Rx|]. split; [exact Ry|]. split; [split; [discriminate|congruence]|].
    split; [exact S12|congruence].
  - destruct (lookup_lt_is_Some_2 (uf_sz u2) x) as [sx Hsx]; [rewrite (ui_sz _ _ I2); exact Hx|].
    destruct (lookup_lt_is_Some_2 (uf_sz u2) y) as [sy Hsy]; [rewrite (ui_sz _ _ I2); exact Hy|].
    rewrite (vget_ok _ _ _ Hsx), (vget_ok _ _ _ Hsy). cbn [mbind res_bind].
    destruct (if (sy <? sx)%Z then (ry, rx) else (rx, ry)) as [fx fy].
    rewrite vset_ok by (rewrite (ui_fa _ _ I2); exact Hx). cbn [mbind res_bind].
    unfold uadd. destruct (Z.ltb_spec (sy + sx) (2 ^ 64)); [|left; reflexivity].
    cbn [mbind res_bind]. rewrite vset_ok by (rewrite (ui_sz _ _ I2); exact Hy). cbn [mbind res_bind].
    right. eexists _, true, rx, ry. split; [reflexivity|].
    split; [constructor; cbn [uf_n uf_fa uf_sz]|].
    + apply (ui_n _ _ I2).
    + rewrite insert_length. apply (ui_fa _ _ I2).
    + rewrite insert_length. apply (ui_sz _ _ I2).
    + apply (link_acyclic _ _ _ rx ry); [apply (ui_ac _ _ I2)|apply S12; exact Rx|apply S12; exact Ry|exact Hne].
    + split; [exact Rx|]. split; [exact Ry|]. split; [tauto|]. cbn [uf_fa uf_sz].
      exists (uf_fa u2), sx, sy. split; [exact S12|]. split; [reflexivity|].
      rewrite <- Z1, <- Z2. auto.
Qed.

Lemma size_ok n u x : UInv n u -> x < n ->
  exists u' r s, uf_size u x = Ok (u', s) /\ UInv n u' /\ same_roots (uf_fa u) (uf_fa u') /\ uf_sz u' = uf_sz u /\
    root (uf_fa u) x r /\ uf_sz u !! r = Some s.
Proof.
  intros I Hx. unfold uf_size. rewrite (ui_n _ _ I). destruct (Nat.ltb_spec x n); [|lia].
  cbn [rassert mbind res_bind].
  destruct (find_ok n u x I Hx) as (u1 & rx & -> & Rx & Hrx & S1 & Z1 & I1). cbn [mbind res_bind].
  destruct (lookup_lt_is_Some_2 (uf_sz u1) rx) as [s Hs]; [rewrite (ui_sz _ _ I1); exact Hrx|].
  rewrite (vget_ok _ _ _ Hs). cbn [mbind res_bind]. exists u1, rx, s.
  split; [reflexivity|]. split; [exact I1|]. split; [exact S1|]. split; [exact Z1|].
  split; [exact Rx|]. rewrite <- Z1. exact Hs.
Qed.

(** ** groups *)
Lemma groups_loop_ok n u : UInv n u ->
  exists u' res, uf_groups_loop u = Ok (u', res) /\ UInv n u' /\ same_roots (uf_fa u) (uf_fa u') /\ uf_sz u' = uf_sz u /\
    length res = n /\ forall r g, res !! r = Some g ->
      Sorted.StronglySorted lt g /\ forall i, i ∈ g <-> (i < n /\ root (uf_fa u) i r).
Proof.
  intros I. unfold uf_groups_loop. rewrite (ui_n _ _ I). unfold range.
  match goal with |- context [rfor _ ?b _] => set (body := b) end.
  destruct (rfor_range_inv (fun k '(u', res) => UInv n u' /\ same_roots (uf_fa u) (uf_fa u') /\ uf_sz u' = uf_sz u /\
     length res = n /\ forall r g, res !! r = Some g ->
       Sorted.StronglySorted lt g /\ forall i, i ∈ g <-> (i < k /\ root (uf_fa u) i r))
     0 n body (u, replicate n [])) as ([u' res] & Hr & H).
  - lia.
  - split; [exact I|]. split; [apply same_roots_refl|]. split; [reflexivity|].
    split; [apply replicate_length|]. intros r g Hg. apply lookup_replicate in Hg as [-> _].
    split; [constructor|]. intros i. split; [intros Hi; inversion Hi|lia].
  - intros k [u1 res] Hk (I1 & S1 & Z1 & Lr & Hres). unfold body.
    destruct (find_ok n u1 k I1 ltac:(lia)) as (u2 & r & -> & R & Hrn & S2 & Z2 & I2). cbn [mbind res_bind].
    apply (same_roots_iff (uf_fa u) (uf_fa u1)) in R; [|apply (ui_ac _ _ I)|exact S1].
    destruct (lookup_lt_is_Some_2 res r ltac:(lia)) as [g Hg].
    rewrite (vget_ok _ _ _ Hg). cbn [mbind res_bind]. rewrite vset_ok by lia. cbn [mbind res_bind].
    eexists; split; [reflexivity|]. split; [exact I2|].
    split; [apply (same_roots_trans _ _ _ S1 S2)|]. split; [congruence|].
    split; [rewrite insert_length; exact Lr|].
    intros r' g' Hg'. destruct (decide (r = r')) as [<-|Hne].
    + rewrite list_lookup_insert in Hg' by lia. injection Hg' as <-.
      destruct (Hres r g Hg) as [Hsorted Hmem]. split.
      * assert (Forall (fun i => i < k) g) as Hall.
        { apply Forall_forall. intros i Hi. apply Hmem in Hi. lia. }
        clear - Hsorted Hall. induction Hsorted as [|a g Hs IH Ha]; cbn.
        -- repeat constructor.
        -- apply Forall_cons in Hall as [Hak Hall]. constructor; [apply IH; exact Hall|].
           apply Forall_app. split; [exact Ha|]. repeat constructor. exact Hak.
      * intros i. rewrite elem_of_app, elem_of_list_singleton, Hmem. split.
        -- intros [[H1 H2]| ->]; [split; [lia|exact H2]|split; [lia|exact R]].
        -- intros [H1 H2]. destruct (decide (i = k)); [right; assumption|left; split; [lia|exact H2]].
    + rewrite list_lookup_insert_ne in Hg' by exact Hne.
      destruct (Hres r' g' Hg') as [Hsorted Hmem]. split; [exact Hsorted|].
      intros i. rewrite Hmem. split.
      * intros [H1 H2]. split; [lia|exact H2].
      * intros [H1 H2]. split; [|exact H2]. destruct (decide (i = k)) as [->|]; [|lia].
        exfalso. apply Hne. apply (root_det (uf_fa u) k); assumption.
  - exists u', res. split; [exact Hr|]. destruct H as (H1 & H2 & H3 & H4 & H5). auto.
Qed.

Lemma groups_ok n u : UInv n u ->
  exists u' gs, uf_groups u = Ok (u', gs) /\ UInv n u' /\ same_roots (uf_fa u) (uf_fa u') /\ uf_sz u' = uf_sz u /\
    (forall g, g ∈ gs -> g <> [] /\ Sorted.StronglySorted lt g) /\
    (forall i, i < n -> exists k g, gs !! k = Some g /\ i ∈ g) /\
    (forall k g i, gs !! k = Some g -> i ∈ g -> i < n) /\
    (forall k1 k2 g1 g2 a b, gs !! k1 = Some g1 -> gs !! k2 = Some g2 -> a ∈ g1 -> b ∈ g2 ->
       (k1 = k2 <-> exists r, root (uf_fa u) a r /\ root (uf_fa u) b r)).
Proof.
  intros I. unfold uf_groups.
  destruct (groups_loop_ok n u I) as (u' & res & -> & I' & S' & Z' & Lr & Hres). cbn [mbind res_bind].
  eexists u', _. split; [reflexivity|]. split; [exact I'|]. split; [exact S'|]. split; [exact Z'|].
  (* every list of the result is the class of one root; indices in the filtered list correspond injectively to roots *)
  assert (forall l : list (list nat), exists f : nat -> nat,
    forall k g, filter (fun g => g <> []) l !! k = Some g ->
      l !! f k = Some g /\ forall k' g', filter (fun g => g <> []) l !! k' = Some g' -> f k = f k' -> k = k') as Hidx.
  { clear. induction l as [|x l [f IH]].
    - exists id. intros k g H. inversion H.
    - destruct (decide (x <> [])) as [Hx|Hx].
      + rewrite filter_cons_True by exact Hx. exists (fun k => match k with 0 => 0 | S k => S (f k) end).
        intros [|k] g H.
        * split; [exact H|]. intros [|k'] g' H' E; [reflexivity|discriminate].
        * cbn in H. destruct (IH k g H) as [H1 H2]. split; [exact H1|].
          intros [|k'] g' H' E; [discriminate|]. cbn in H'. f_equal. apply (H2 k' g' H'). congruence.
      + rewrite filter_cons_False by exact Hx. exists (fun k => S (f k)).
        intros k g H. destruct (IH k g H) as [H1 H2]. split; [exact H1|].
        intros k' g' H' E. apply (H2 k' g' H'). congruence. }
  destruct (Hidx res) as [f Hf].
  split; [|split; [|split]].
  - intros g Hg. apply elem_of_list_filter in Hg as [Hg1 Hg2].
    apply elem_of_list_lookup in Hg2 as [r Hr]. split; [exact Hg1|]. apply (Hres r g Hr).
  - intros i Hi. destruct (ui_ac _ _ I i) as [r Hr]; [rewrite (ui_fa _ _ I); exact Hi|].
    assert (r < n) as Hrn by (destruct Hr as [d Hr]; apply rootof_lt in Hr; rewrite (ui_fa _ _ I) in Hr; lia).
    destruct (lookup_lt_is_Some_2 res r ltac:(lia)) as [g Hg].
    assert (i ∈ g) as Hig by (apply (Hres r g Hg); auto).
    assert (g ∈ filter (fun g => g <> []) res) as Hin.
    { apply elem_of_list_filter. split; [intros ->; inversion Hig|].
      apply elem_of_list_lookup. eauto. }
    apply elem_of_list_lookup in Hin as [k Hk]. eauto.
  - intros k g i Hk Hi. destruct (Hf k g Hk) as [H1 _]. apply (Hres _ _ H1) in Hi. lia.
  - intros k1 k2 g1 g2 a b H1 H2 Ha Hb.
    destruct (Hf k1 g1 H1) as [F1 Inj]. destruct (Hf k2 g2 H2) as [F2 _].
    apply (Hres _ _ F1) in Ha as [_ Ra]. apply (Hres _ _ F2) in Hb as [_ Rb].
    split.
    + intros ->. eauto.
    + intros (r & Ra' & Rb'). apply (Inj k2 g2 H2).
      rewrite (root_det _ _ _ _ Ra Ra'), (root_det _ _ _ _ Rb Rb'). reflexivity.
Qed.

(** ** Reachable states *)
Lemma step_inv n u o u' out : UInv n u -> uf_step u o = Ok (u', out) -> UInv n u'.
Proof.
  intros I H. destruct o as [i|x y|x y|x|]; cbn [uf_step] in H.
  - destruct (decide (i < n)) as [Hi|Hi].
    + destruct (find_ok n u i I Hi) as (u1 & r & E & _ & _ & _ & _ & I1). rewrite E in H. cbn in H. congruence.
    + rewrite (find_panic n) in H by (assumption || lia). discriminate.
  - destruct (decide (x < n)) as [Hx|Hx]; [destruct (decide (y < n)) as [Hy|Hy]|].
    + destruct (is_same_ok n u x y I Hx Hy) as (u1 & b & E & _ & _ & I1 & _). rewrite E in H. cbn in H. congruence.
    + unfold uf_is_same in H. rewrite (ui_n _ _ I) in H.
      destruct (Nat.ltb_spec y n), (Nat.ltb_spec x n); try lia; discriminate.
    + unfold uf_is_same in H. rewrite (ui_n _ _ I) in H.
      destruct (Nat.ltb_spec x n); try lia; discriminate.
  - destruct (decide (x < n)) as [Hx|Hx]; [destruct (decide (y < n)) as [Hy|Hy]|].
    + destruct (join_ok n u x y I Hx Hy) as [E|(u1 & b & rx & ry & E & I1 & _)]; rewrite E in H; cbn in H; [discriminate|congruence].
    + unfold uf_join in H. rewrite (ui_n _ _ I) in H.
      destruct (Nat.ltb_spec y n), (Nat.ltb_spec x n); try lia; discriminate.
    + unfold uf_join in H. rewrite (ui_n _ _ I) in H.
      destruct (Nat.ltb_spec x n); try lia; discriminate.
  - destruct (decide (x < n)) as [Hx|Hx].
    + destruct (size_ok n u x I Hx) as (u1 & r & s & E & I1 & _). rewrite E in H. cbn in H. congruence.
    + unfold uf_size in H. rewrite (ui_n _ _ I) in H. destruct (Nat.ltb_spec x n); try lia; discriminate.
  - destruct (groups_ok n u I) as (u1 & gs & E & I1 & _). rewrite E in H. cbn in H. congruence.
Qed.

Lemma run_inv n ops : forall u u' outs, UInv n u -> run uf_step u ops = Ok (u', outs) -> UInv n u'.
Proof.
  induction ops as [|o ops IH]; intros u u' outs I H; cbn [run] in H.
  - congruence.
  - destruct (uf_step u o) as [[u1 o1]| |] eqn:E; cbn [mbind res_bind] in H; try discriminate.
    destruct (run uf_step u1 ops) as [[u2 o2]| |] eqn:E2; cbn [mbind res_bind] in H; try discriminate.
    injection H as -> _. apply (IH u1 u' o2); [|exact E2]. apply (step_inv n u o u1 o1); assumption.
Qed.

(** ** Sizes when join is only applied to representatives *)
Definition rootf (fa : list nat) (i : nat) : nat :=
  match uf_find_fa (S (length fa)) fa i with Ok (_, r) => r | _ => i end.

Lemma rootf_spec fa i r : root fa i r -> rootf fa i = r.
Proof.
  intros [d H]. unfold rootf. destruct (find_fa_ok fa (S (length fa)) d i r H) as (fa' & -> & _); [|reflexivity].
  apply rootof_depth in H. lia.
Qed.

Definition count (f : nat -> nat) (r n : nat) : nat := length (filter (fun i => f i = r) (seq 0 n)).

Lemma filter_ext_len {A} (P Q : A -> Prop) `{!forall x, Decision (P x)} `{!forall x, Decision (Q x)} (l : list A) :
  (forall x, x ∈ l -> P x <-> Q x) -> length (filter P l) = length (filter Q l).
Proof.
  induction l as [|x l IH]; intros HPQ; [reflexivity|].
  assert (length (filter P l) = length (filter Q l)) as E.
  { apply IH. intros y Hy. apply HPQ. apply elem_of_cons. auto. }
  pose proof (HPQ x ltac:(apply elem_of_cons; auto)) as Hx.
  destruct (decide (P x)) as [HP|HP].
  - rewrite (filter_cons_True P), (filter_cons_True Q) by tauto. cbn. lia.
  - rewrite (filter_cons_False P), (filter_cons_False Q) by tauto. exact E.
Qed.

Lemma count_ext f g r n : (forall i, i < n -> f i = g i) -> count f r n = count g r n.
Proof.
  intros H. apply filter_ext_len. intros i Hi. apply elem_of_seq in Hi. rewrite H by lia. reflexivity.
Qed.

Lemma filter_split_len {A} (P Q R : A -> Prop) `{!forall x, Decision (P x)} `{!forall x, Decision (Q x)}
  `{!forall x, Decision (R x)} (l : list A) :
  (forall x, P x <-> Q x \/ R x) -> (forall x, Q x -> R x -> False) ->
  length (filter P l) = length (filter Q l) + length (filter R l).
Proof.
  intros HPQR HQR. induction l as [|x l IH]; [reflexivity|].
  specialize (HPQR x). specialize (HQR x).
  destruct (decide (Q x)) as [HQ|HQ].
  - rewrite (filter_cons_True P), (filter_cons_True Q), (filter_cons_False R) by tauto. cbn. lia.
  - destruct (decide (R x)) as [HR|HR].
    + rewrite (filter_cons_True P), (filter_cons_False Q), (filter_cons_True R) by tauto. cbn. lia.
    + rewrite (filter_cons_False P), (filter_cons_False Q), (filter_cons_False R) by tauto. exact IH.
Qed.

Lemma count_le f r n : count f r n <= n.
Proof. unfold count. rewrite <- (seq_length n 0) at 2. apply filter_length. Qed.

Definition sizes_exact (n : nat) (u : uf) : Prop :=
  forall r, root (uf_fa u) r r -> uf_sz u !! r = Some (Z.of_nat (count (rootf (uf_fa u)) r n)).

Lemma sizes_same n u u' : UInv n u -> same_roots (uf_fa u) (uf_fa u') -> uf_sz u' = uf_sz u ->
  sizes_exact n u -> sizes_exact n u'.
Proof.
  intros I S Z H r Hr. rewrite Z. apply (same_roots_iff (uf_fa u)) in Hr; [|apply (ui_ac _ _ I)|exact S].
  rewrite (H r Hr). do 2 f_equal. apply count_ext. intros i Hi.
  destruct (ui_ac _ _ I i) as [s Hs]; [rewrite (ui_fa _ _ I); exact Hi|].
  rewrite (rootf_spec _ _ _ Hs). symmetry. apply rootf_spec. apply S. exact Hs.
Qed.

Lemma sizes_new n : sizes_exact n (uf_new n).
Proof.
  intros r Hr. cbn [uf_new uf_sz uf_fa] in *.
  assert (r < n) as Hrn.
  { destruct Hr as [d Hr]. apply rootof_lt in Hr. rewrite seq_length in Hr. lia. }
  rewrite lookup_replicate_2 by exact Hrn.
  assert (count (rootf (seq 0 n)) r n = 1) as ->; [|reflexivity].
  rewrite (count_ext _ id).
  2:{ intros i Hi. unfold id. apply rootf_spec. exists 0. constructor. apply lookup_seq. lia. }
  unfold count, id. clear Hr. 
  assert (forall a m, length (filter (fun i => i = r) (seq a m)) = if decide (a <= r < a + m) then 1 else 0) as H.
  { intros a m. revert a. induction m as [|m IH]; intros a; cbn [seq].
    - destruct (decide (a <= r < a + 0)); [lia|reflexivity].
    - destruct (decide (a = r)) as [->|Hne].
      + rewrite filter_cons_True by reflexivity. cbn. rewrite IH.
        destruct (decide (S r <= r < S r + m)); [lia|]. destruct (decide (r <= r < r + S m)); lia.
      + rewrite filter_cons_False by exact Hne. rewrite IH.
        destruct (decide (S a <= r < S a + m)), (decide (a <= r < a + S m)); lia. }
  rewrite H. destruct (decide (0 <= r < 0 + n)); lia.
Qed.

Lemma sizes_join n u x y : UInv n u -> (Z.of_nat n < 2 ^ 64)%Z -> sizes_exact n u -> x < n -> y < n ->
  root (uf_fa u) x x -> root (uf_fa u) y y ->
  exists u' b, uf_join u x y = Ok (u', b) /\ sizes_exact n u'.
Proof.
  intros I Hn HS Hx Hy Rx Ry.
  (* no overflow: the two sets are disjoint parts of 0..n *)
  destruct (join_ok n u x y I Hx Hy) as [E|(u' & b & rx & ry & E & I' & Rx' & Ry' & Hb & Hcase)].
  - exfalso. unfold uf_join in E. rewrite (ui_n _ _ I) in E.
    destruct (Nat.ltb_spec x n); [|lia]. destruct (Nat.ltb_spec y n); [|lia]. cbn [rassert mbind res_bind] in E.
    destruct (find_ok n u x I Hx) as (u1 & rx & E1 & Rx1 & _ & S1 & Z1 & I1). rewrite E1 in E. cbn [mbind res_bind] in E.
    destruct (find_ok n u1 y I1 Hy) as (u2 & ry & E2 & Ry1 & _ & S2 & Z2 & I2). rewrite E2 in E. cbn [mbind res_bind] in E.
    apply (same_roots_iff (uf_fa u) (uf_fa u1)) in Ry1; [|apply (ui_ac _ _ I)|exact S1].
    assert (rx = x) as -> by (apply (root_det (uf_fa u) x); assumption).
    assert (ry = y) as -> by (apply (root_det (uf_fa u) y); assumption).
    destruct (Nat.eqb_spec x y) as [Exy|Hxy]; [discriminate|].
    rewrite Z2, Z1, (vget_ok _ _ _ (HS x Rx)), (vget_ok _ _ _ (HS y Ry)) in E. cbn [mbind res_bind] in E.
    match type of E with context [if ?b then (?p, ?q) else (?p', ?q')] =>
      destruct (if b then (p, q) else (p', q')) as [f1 f2] end.
    rewrite vset_ok in E by (rewrite (ui_fa _ _ I2); exact Hx). cbn [mbind res_bind] in E.
    unfold uadd in E.
    assert (count (rootf (uf_fa u)) y n + count (rootf (uf_fa u)) x n <= n) as Hc.
    { unfold count.
      rewrite <- (filter_split_len (fun i => rootf (uf_fa u) i = y \/ rootf (uf_fa u) i = x)
                    (fun i => rootf (uf_fa u) i = y) (fun i => rootf (uf_fa u) i = x)).
      - rewrite <- (seq_length n 0) at 2. apply filter_length.
      - tauto.
      - intros i. congruence. }
    match type of E with context [(?a <? ?b)%Z] => destruct (Z.ltb_spec a b) as [Hlt|Hge] end; [|lia].
    cbn [mbind res_bind] in E. rewrite vset_ok in E by (rewrite (ui_sz _ _ I); exact Hy). discriminate.
  - exists u', b. split; [exact E|].
    assert (rx = x) as -> by (apply (root_det (uf_fa u) x); assumption).
    assert (ry = y) as -> by (apply (root_det (uf_fa u) y); assumption).
    destruct b.
    + assert (x <> y) as Hxy by (apply Hb; reflexivity).
      destruct Hcase as (fa1 & sx & sy & S1 & Efa & Hsx & Hsy & Esz).
      rewrite (HS x Rx) in Hsx. rewrite (HS y Ry) in Hsy. injection Hsx as <-. injection Hsy as <-.
      pose proof (proj2 S1 _ _ Rx) as Rx1. pose proof (proj2 S1 _ _ Ry) as Ry1.
      assert (forall i, i < n -> rootf (uf_fa u') i = if decide (rootf (uf_fa u) i = x) then y else rootf (uf_fa u) i) as Hroot.
      { intros i Hi. destruct (ui_ac _ _ I i) as [s Hs]; [rewrite (ui_fa _ _ I); exact Hi|].
        rewrite (rootf_spec _ _ _ Hs). apply rootf_spec. rewrite Efa.
        apply link_merge; [exact Rx1|exact Ry1|exact Hxy|]. apply S1. exact Hs. }
      intros r Hr.
      assert (r < n) as Hrn by (destruct Hr as [d Hr]; apply rootof_lt in Hr; rewrite (ui_fa _ _ I') in Hr; lia).
      pose proof (Hroot r Hrn) as Hrr. rewrite (rootf_spec _ _ _ Hr) in Hrr.
      rewrite (count_ext _ _ r n Hroot). rewrite Esz.
      destruct (decide (y = r)) as [<-|Hyr].
      * rewrite list_lookup_insert by (rewrite (ui_sz _ _ I); exact Hy). f_equal.
        rewrite <- Nat2Z.inj_add. f_equal. unfold count. symmetry. apply filter_split_len.
        -- intros i. destruct (decide (rootf (uf_fa u) i = x)) as [E1|E1]; tauto.
        -- intros i. congruence.
      * rewrite list_lookup_insert_ne by exact Hyr.
        destruct (decide (rootf (uf_fa u) r = x)) as [E1|E1]; [congruence|].
        destruct (ui_ac _ _ I r) as [s Hs]; [rewrite (ui_fa _ _ I); exact Hrn|].
        rewrite (rootf_spec _ _ _ Hs) in *. subst s.
        rewrite (HS r Hs). do 2 f_equal. apply filter_ext_len. intros i _.
        destruct (decide (rootf (uf_fa u) i = x)) as [E2|E2]; [|reflexivity].
        split; congruence.
    + destruct Hcase as [S1 Z1]. apply (sizes_same n u u' I S1 Z1 HS).
Qed.
