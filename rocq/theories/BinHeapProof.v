From Coq Require Import Sorting.Sorted.
From Verif Require Import Prelude HeapModel HeapSpec BinHeapModel BinHeapSpec.

(** ** Positions *)
Definition par (i : nat) : nat := (i - 1) / 2.
Lemma par_spec i : 0 < i -> i = 2 * par i + 1 \/ i = 2 * par i + 2.
Proof. intros H. unfold par. pose proof (Nat.div_mod (i - 1) 2 ltac:(lia)). pose proof (Nat.mod_upper_bound (i - 1) 2 ltac:(lia)). lia. Qed.
Lemma par_child h : par (2 * h + 1) = h /\ par (2 * h + 2) = h.
Proof. pose proof (par_spec (2 * h + 1) ltac:(lia)). pose proof (par_spec (2 * h + 2) ltac:(lia)). lia. Qed.

(** ** Heaps as functions of the position *)
Section Order.
  Context {A : Type} (le : A -> A -> Prop).
  Context (le_trans : forall a b c, le a b -> le b c -> le a c) (le_total : forall a b, le a b \/ le b a).
  Definition exch (p q : nat) (f : nat -> A) (i : nat) : A := if decide (i = p) then f q else if decide (i = q) then f p else f i.
  (** Order along the edges into positions below e whose upper end is at least lo. *)
  Definition heap_on (lo e : nat) (f : nat -> A) : Prop := forall i, 0 < i < e -> lo <= par i -> le (f i) (f (par i)).
  Definition up_inv (e p : nat) (f : nat -> A) : Prop :=
    (forall i, 0 < i < e -> i <> p -> le (f i) (f (par i))) /\ (forall c, 0 < c < e -> par c = p -> 0 < p -> le (f c) (f (par p))).
  Definition down_inv (lo e h : nat) (f : nat -> A) : Prop :=
    (forall i, 0 < i < e -> lo <= par i -> par i <> h -> le (f i) (f (par i))) /\
    (forall c, 0 < c < e -> par c = h -> 0 < h -> lo <= par h -> le (f c) (f (par h))).
  Definition bot_inv (e h : nat) (f : nat -> A) : Prop :=
    (forall i, 0 < i < e -> i <> h -> par i <> h -> le (f i) (f (par i))) /\ (forall c, 0 < c < e -> par c = h -> 0 < h -> le (f c) (f (par h))).
  Lemma le_refl a : le a a.
  Proof. destruct (le_total a a); assumption. Qed.

  Lemma up_step e p f : up_inv e p f -> 0 < p < e -> ~ le (f p) (f (par p)) -> up_inv e (par p) (exch p (par p) f).
  Proof.
    intros [H1 H2] Hp Hn. assert (Hle : le (f (par p)) (f p)) by (destruct (le_total (f p) (f (par p))); [contradiction|assumption]). pose proof (par_spec p ltac:(lia)) as P. split.
    - intros i Hi Hne. pose proof (par_spec i ltac:(lia)) as Pi. unfold exch. destruct (decide (i = p)) as [->|Hip].
      + rewrite (decide_False (P := par p = p)) by lia. rewrite decide_True by reflexivity. exact Hle.
      + rewrite decide_False by exact Hne. destruct (decide (par i = p)) as [E|Hpp]; [apply H2; [exact Hi|exact E|lia]|]. destruct (decide (par i = par p)) as [E|Hpq].
        * apply le_trans with (f (par p)); [rewrite <- E; apply H1; assumption|exact Hle].
        * apply H1; assumption.
    - intros c Hc Ec Hq. pose proof (par_spec (par p) Hq) as Pq. pose proof (par_spec c ltac:(lia)) as Pc. unfold exch. rewrite (decide_False (P := par (par p) = p)) by lia. rewrite (decide_False (P := par (par p) = par p)) by lia.
      destruct (decide (c = p)) as [->|Hcp]; [apply H1; lia|]. rewrite decide_False by lia. apply le_trans with (f (par p)); [rewrite <- Ec; apply H1; assumption|]. apply H1; lia.
  Qed.
  Lemma up_stop e p f : up_inv e p f -> (p = 0 \/ le (f p) (f (par p))) -> heap_on 0 e f.
  Proof. intros [H1 _] H i Hi _. destruct (decide (i = p)) as [->|Hne]; [destruct H as [->|H]; [lia|exact H]|apply H1; assumption]. Qed.

  Lemma down_step lo e h c f : down_inv lo e h f -> lo <= h -> 0 < c < e -> par c = h -> (forall s, 0 < s < e -> par s = h -> le (f s) (f c)) -> le (f h) (f c) -> down_inv lo e c (exch h c f).
  Proof.
    intros [H1 H2] Hlo Hc Ec Hmax Hle. pose proof (par_spec c ltac:(lia)) as Pc. split.
    - intros i Hi Hl Hne. pose proof (par_spec i ltac:(lia)) as Pi. unfold exch. destruct (decide (i = h)) as [->|Hih].
      + rewrite (decide_False (P := par h = h)) by lia. rewrite decide_False by exact Hne. apply H2; [exact Hc|exact Ec|lia|exact Hl].
      + destruct (decide (i = c)) as [->|Hic]; [rewrite decide_True by exact Ec; exact Hle|]. destruct (decide (par i = h)) as [E|Hp]; [apply Hmax; assumption|]. rewrite decide_False by exact Hne. apply H1; assumption.
    - intros g Hg Eg _ _. pose proof (par_spec g ltac:(lia)) as Pg. unfold exch. rewrite (decide_False (P := g = h)) by lia. rewrite (decide_False (P := g = c)) by lia. rewrite Ec, decide_True by reflexivity.
      rewrite <- Eg. apply H1; [exact Hg|lia|lia].
  Qed.
  Lemma down_stop lo e h f : down_inv lo e h f -> (forall s, 0 < s < e -> par s = h -> le (f s) (f h)) -> heap_on lo e f.
  Proof. intros [H1 _] H i Hi Hl. destruct (decide (par i = h)) as [E|Hne]; [rewrite E; apply H; assumption|apply H1; assumption]. Qed.
  Lemma bot_step e h c f : bot_inv e h f -> 0 < c < e -> par c = h -> (forall s, 0 < s < e -> par s = h -> le (f s) (f c)) -> bot_inv e c (exch h c f).
  Proof.
    intros [H1 H2] Hc Ec Hmax. pose proof (par_spec c ltac:(lia)) as Pc. split.
    - intros i Hi Hic Hne. pose proof (par_spec i ltac:(lia)) as Pi. unfold exch. destruct (decide (i = h)) as [->|Hih].
      + rewrite (decide_False (P := par h = h)) by lia. rewrite decide_False by exact Hne. apply H2; [exact Hc|exact Ec|lia].
      + rewrite decide_False by exact Hic. destruct (decide (par i = h)) as [E|Hp]; [apply Hmax; assumption|]. rewrite decide_False by exact Hne. apply H1; assumption.
    - intros g Hg Eg _. pose proof (par_spec g ltac:(lia)) as Pg. unfold exch. rewrite (decide_False (P := g = h)) by lia. rewrite (decide_False (P := g = c)) by lia. rewrite Ec, decide_True by reflexivity.
      rewrite <- Eg. apply H1; lia.
  Qed.
  Lemma bot_stop e h f : bot_inv e h f -> (forall s, 0 < s < e -> par s <> h) -> up_inv e h f.
  Proof. intros [H1 H2] H. split; [intros i Hi Hne; apply H1; auto|]. intros c Hc Ec. destruct (H c Hc Ec). Qed.
  Lemma heap_root lo e f : heap_on lo e f -> lo = 0 -> forall i, i < e -> le (f i) (f 0).
  Proof.
    intros H -> i. induction i as [i IH] using lt_wf_ind. intros Hi. destruct i as [|i]; [apply le_refl|]. pose proof (par_spec (S i) ltac:(lia)).
    apply le_trans with (f (par (S i))); [apply H; lia|]. apply IH; lia.
  Qed.
End Order.

(** ** Lists with a hole *)
Section Lists.
  Context {A : Type}.
  Implicit Types l : list A.
  Lemma insert_perm l p x y : l !! p = Some y -> x :: l ≡ₚ y :: <[p := x]> l.
  Proof.
    revert p. induction l as [|z l IH]; intros p H; [discriminate|]. destruct p as [|p]; cbn in *; [injection H as ->; constructor|].
    rewrite (perm_swap z x l), (IH p H). apply perm_swap.
  Qed.
  Definition val (d : A) l (i : nat) : A := default d (l !! i).
  (** The hole moves from p to q, x being at q. *)
  Lemma hole_perm l p q elt x : p <> q -> p < length l -> l !! q = Some x -> <[q := elt]> (<[p := x]> l) ≡ₚ <[p := elt]> l.
  Proof.
    intros Hpq Hp Hq. destruct (lookup_lt_is_Some_2 l p Hp) as [z Hz]. pose proof (insert_perm l p elt z Hz) as P1. pose proof (insert_perm l p x z Hz) as P2.
    pose proof (insert_perm (<[p := x]> l) q elt x ltac:(rewrite list_lookup_insert_ne by auto; exact Hq)) as P3.
    apply (Permutation_cons_inv (a := x)), (Permutation_cons_inv (a := z)). rewrite <- P3, perm_swap, <- P2, perm_swap, P1. apply perm_swap.
  Qed.
  Lemma hole_val d l p q elt x : p <> q -> p < length l -> l !! q = Some x -> forall i, val d (<[q := elt]> (<[p := x]> l)) i = exch p q (val d (<[p := elt]> l)) i.
  Proof.
    intros Hpq Hp Hq i. pose proof (lookup_lt_Some _ _ _ Hq) as Hlq. unfold exch, val. destruct (decide (i = p)) as [->|Hip].
    - rewrite list_lookup_insert_ne, list_lookup_insert, list_lookup_insert_ne, Hq by auto. reflexivity.
    - destruct (decide (i = q)) as [->|Hiq]; [rewrite !list_lookup_insert by (rewrite ?insert_length; assumption); reflexivity|]. rewrite !list_lookup_insert_ne by auto. reflexivity.
  Qed.
  Lemma hole_outside l p q elt x i : i <> p -> i <> q -> (<[q := elt]> (<[p := x]> l)) !! i = l !! i.
  Proof. intros H1 H2. rewrite !list_lookup_insert_ne by auto. reflexivity. Qed.
  Lemma val_some d l i x : l !! i = Some x -> val d l i = x.
  Proof. unfold val. intros ->. reflexivity. Qed.
End Lists.
Lemma up_inv_ext {A} (le : A -> A -> Prop) e p f f' : (forall i, i < e -> f' i = f i) -> p < e -> up_inv le e p f -> up_inv le e p f'.
Proof.
  intros H Hp [H1 H2]. split.
  - intros i Hi Hne. pose proof (par_spec i ltac:(lia)). rewrite !H by lia. apply H1; assumption.
  - intros c Hc Ec Hp0. pose proof (par_spec p Hp0). rewrite !H by lia. apply H2; assumption.
Qed.
Lemma down_inv_ext {A} (le : A -> A -> Prop) lo e p f f' : (forall i, i < e -> f' i = f i) -> p < e -> down_inv le lo e p f -> down_inv le lo e p f'.
Proof.
  intros H Hp [H1 H2]. split.
  - intros i Hi Hl Hne. pose proof (par_spec i ltac:(lia)). rewrite !H by lia. apply H1; assumption.
  - intros c Hc Ec Hp0 Hl. pose proof (par_spec p Hp0). rewrite !H by lia. apply H2; assumption.
Qed.
Lemma bot_inv_ext {A} (le : A -> A -> Prop) e p f f' : (forall i, i < e -> f' i = f i) -> p < e -> bot_inv le e p f -> bot_inv le e p f'.
Proof.
  intros H Hp [H1 H2]. split.
  - intros i Hi Hl Hne. pose proof (par_spec i ltac:(lia)). rewrite !H by lia. apply H1; assumption.
  - intros c Hc Ec Hp0. pose proof (par_spec p Hp0). rewrite !H by lia. apply H2; assumption.
Qed.
Lemma heap_on_ext {A} (le : A -> A -> Prop) lo e f f' : (forall i, i < e -> f' i = f i) -> heap_on le lo e f -> heap_on le lo e f'.
Proof. intros H H1 i Hi Hl. pose proof (par_spec i ltac:(lia)). rewrite !H by lia. apply H1; assumption. Qed.

Section Laws.
  Context {A : Type} (cmp : A -> A -> comparison) (le : A -> A -> Prop) (O : ordered cmp le).
  Lemma or_total a b : le a b \/ le b a.
  Proof. rewrite !(or_le _ _ O), (or_opp _ _ O a b). destruct (cmp a b); cbn; auto; left; discriminate. Qed.
  Lemma c_le_true a b : c_le cmp a b = true <-> le a b.
  Proof. rewrite (or_le _ _ O). unfold c_le. destruct (cmp a b); split; congruence. Qed.
  Lemma c_le_false a b : c_le cmp a b = false -> ~ le a b /\ le b a.
  Proof. intros H. assert (~ le a b) as N by (rewrite <- c_le_true; congruence). split; [exact N|]. destruct (or_total a b); [contradiction|assumption]. Qed.
  Lemma c_ge_true a b : c_ge cmp a b = true <-> le b a.
  Proof. rewrite (or_le _ _ O), (or_opp _ _ O a b). unfold c_ge. destruct (cmp a b); cbn; split; congruence. Qed.
  Lemma c_ge_false a b : c_ge cmp a b = false -> le a b.
  Proof. intros H. destruct (or_total a b) as [|N]; [assumption|]. apply c_ge_true in N. congruence. Qed.
  Lemma c_lt_true a b : c_lt cmp a b = true -> le a b.
  Proof. rewrite (or_le _ _ O). unfold c_lt. destruct (cmp a b); congruence. Qed.
  Lemma c_lt_false a b : c_lt cmp a b = false -> le b a.
  Proof. rewrite (or_le _ _ O), (or_opp _ _ O a b). unfold c_lt. destruct (cmp a b); cbn; congruence. Qed.
End Laws.

(** ** The loops.  Without laws for cmp they still permute the elements. *)
Section Sift.
  Context {A : Type} (cmp : A -> A -> comparison).
  Lemma sift_up_ok e data pos : pos < e <= length data -> exists l, sift_up cmp data pos = Ok l /\ l ≡ₚ data /\ (forall i, e <= i -> l !! i = data !! i) /\
    forall le d, ordered cmp le -> up_inv le e pos (val d data) -> heap_on le 0 e (val d l).
  Proof.
    intros Hpos. unfold sift_up. destruct (lookup_lt_is_Some_2 data pos) as [elt Helt]; [lia|]. rewrite (vget_ok _ _ _ Helt). cbn [mbind res_bind].
    apply (rloop_inv (fun '(l, p) => p < e /\ length l = length data /\ <[p := elt]> l ≡ₚ data /\ (forall i, e <= i -> l !! i = data !! i) /\
      forall le d, ordered cmp le -> up_inv le e pos (val d data) -> up_inv le e p (val d (<[p := elt]> l)))
      (fun l => l ≡ₚ data /\ (forall i, e <= i -> l !! i = data !! i) /\ forall le d, ordered cmp le -> up_inv le e pos (val d data) -> heap_on le 0 e (val d l)) snd).
    - intros [l p] (Hp & Ll & Pl & Ol & Il). destruct (Nat.ltb_spec 0 p) as [H0|H0].
      + pose proof (par_spec p H0) as Pp. change ((p - 1) / 2) with (par p). destruct (lookup_lt_is_Some_2 l (par p)) as [x Hx]; [lia|]. rewrite (vget_ok _ _ _ Hx). cbn [mbind res_bind].
        assert (Vp : forall d, val d (<[p := elt]> l) p = elt) by (intros d; apply val_some, list_lookup_insert; lia).
        assert (Vq : forall d, val d (<[p := elt]> l) (par p) = x) by (intros d; apply val_some; rewrite list_lookup_insert_ne by lia; exact Hx).
        destruct (c_le cmp elt x) eqn:C; rewrite vset_ok by lia; cbn [mbind res_bind]; (eexists; split; [reflexivity|]).
        * split; [exact Pl|]. split; [intros i Hi; rewrite list_lookup_insert_ne by lia; auto|]. intros le d L H. apply (up_stop le e p); [auto|]. right. rewrite Vp, Vq. apply (c_le_true cmp le L). exact C.
        * split; [|cbn; lia]. split; [lia|]. split; [rewrite insert_length; exact Ll|]. split; [rewrite hole_perm by (try lia; exact Hx); exact Pl|]. split; [intros i Hi; rewrite list_lookup_insert_ne by lia; auto|].
          intros le d L H. eapply up_inv_ext; [intros i _; apply hole_val; [lia|lia|exact Hx]|lia|]. apply (up_step le); [apply (or_trans _ _ L)|apply (or_total cmp le L)|auto|lia|]. rewrite Vp, Vq. apply (c_le_false cmp le L). exact C.
      + rewrite vset_ok by lia. cbn [mbind res_bind]. eexists. split; [reflexivity|]. split; [exact Pl|]. split; [intros i Hi; rewrite list_lookup_insert_ne by lia; auto|].
        intros le d L H. apply (up_stop le e p); [auto|]. left. lia.
    - split; [lia|]. split; [reflexivity|]. rewrite list_insert_id by exact Helt. split; [reflexivity|]. auto.
    - cbn. lia.
  Qed.

  Lemma child_cases e h c : e >= 2 -> 2 * h + 1 <= e - 2 -> c = 2 * h + 1 \/ c = 2 * h + 2 -> 0 < c < e /\ par c = h.
  Proof. intros He H Hc. pose proof (par_child h). destruct Hc as [->| ->]; lia. Qed.
  Lemma larger_child l p elt x y a b le d : ordered cmp le -> p < length l -> l !! (2 * p + 1) = Some a -> l !! (2 * p + 1 + 1) = Some b -> x = (if c_le cmp a b then 2 * p + 1 + 1 else 2 * p + 1) ->
    l !! x = Some y -> forall e s, 0 < s < e -> par s = p -> le (val d (<[p := elt]> l) s) (val d (<[p := elt]> l) x).
  Proof.
    intros L Hp Ha Hb -> Hy e s Hs Es. pose proof (par_spec s ltac:(lia)) as Ps. rewrite Es in Ps.
    assert (Va : val d (<[p := elt]> l) (2 * p + 1) = a) by (apply val_some; rewrite list_lookup_insert_ne by lia; exact Ha).
    assert (Vb : val d (<[p := elt]> l) (2 * p + 1 + 1) = b) by (apply val_some; rewrite list_lookup_insert_ne by lia; exact Hb).
    replace (2 * p + 2) with (2 * p + 1 + 1) in Ps by lia. destruct (c_le cmp a b) eqn:C.
    - apply (c_le_true cmp le L) in C. rewrite Vb. destruct Ps as [-> | ->]; [rewrite Va; exact C|rewrite Vb; apply le_refl; apply (or_total cmp le L)].
    - apply (c_le_false cmp le L) in C as [_ C]. rewrite Va. destruct Ps as [-> | ->]; [rewrite Va; apply le_refl; apply (or_total cmp le L)|rewrite Vb; exact C].
  Qed.

  Lemma sift_down_ok e data pos : pos < e <= length data -> exists l, sift_down_range cmp data pos e = Ok l /\ l ≡ₚ data /\ (forall i, e <= i -> l !! i = data !! i) /\
    forall le d, ordered cmp le -> heap_on le (S pos) e (val d data) -> heap_on le pos e (val d l).
  Proof.
    intros Hpos. unfold sift_down_range. destruct (lookup_lt_is_Some_2 data pos) as [elt Helt]; [lia|]. rewrite (vget_ok _ _ _ Helt). cbn [mbind res_bind].
    apply (rloop_inv (fun '(l, p) => pos <= p < e /\ length l = length data /\ <[p := elt]> l ≡ₚ data /\ (forall i, e <= i -> l !! i = data !! i) /\
      forall le d, ordered cmp le -> heap_on le (S pos) e (val d data) -> down_inv le pos e p (val d (<[p := elt]> l)))
      (fun l => l ≡ₚ data /\ (forall i, e <= i -> l !! i = data !! i) /\ forall le d, ordered cmp le -> heap_on le (S pos) e (val d data) -> heap_on le pos e (val d l)) (fun s => e - s.2)).
    - intros [l p] (Hp & Ll & Pl & Ol & Il).
      assert (Vp : forall d, val d (<[p := elt]> l) p = elt) by (intros d; apply val_some, list_lookup_insert; lia).
      assert (Oi : forall i, e <= i -> <[p := elt]> l !! i = data !! i) by (intros i Hi; rewrite list_lookup_insert_ne by lia; auto).
      destruct (Nat.leb_spec (2 * p + 1) (e - 2)) as [Hc|Hc]; [|destruct (Nat.eqb_spec (2 * p + 1) (e - 1)) as [Hc1|Hc1]].
      + destruct (lookup_lt_is_Some_2 l (2 * p + 1)) as [a Ha]; [lia|]. destruct (lookup_lt_is_Some_2 l (2 * p + 1 + 1)) as [b Hb]; [lia|].
        rewrite (vget_ok _ _ _ Ha), (vget_ok _ _ _ Hb). cbn [mbind res_bind]. remember (if c_le cmp a b then 2 * p + 1 + 1 else 2 * p + 1) as c eqn:Ec.
        assert (Hcc : c = 2 * p + 1 \/ c = 2 * p + 2) by (subst c; destruct (c_le cmp a b); lia). destruct (child_cases e p c ltac:(lia) Hc Hcc) as [Hce Hcp].
        destruct (lookup_lt_is_Some_2 l c) as [x Hx]; [lia|]. rewrite (vget_ok _ _ _ Hx). cbn [mbind res_bind].
        assert (Vc : forall d, val d (<[p := elt]> l) c = x) by (intros d; apply val_some; rewrite list_lookup_insert_ne by lia; exact Hx).
        assert (Mx : forall le d, ordered cmp le -> forall s, 0 < s < e -> par s = p -> le (val d (<[p := elt]> l) s) (val d (<[p := elt]> l) c)) by (intros le d L; eapply larger_child; [exact L|lia|exact Ha|exact Hb|exact Ec|exact Hx]).
        destruct (c_ge cmp elt x) eqn:C; rewrite vset_ok by lia; cbn [mbind res_bind]; (eexists; split; [reflexivity|]).
        * split; [exact Pl|]. split; [exact Oi|]. intros le d L H. apply (down_stop le pos e p); [auto|]. intros s Hs Es. apply (or_trans _ _ L) with (val d (<[p := elt]> l) c); [apply (Mx le d L); assumption|]. rewrite Vc, Vp. apply (c_ge_true cmp le L). exact C.
        * split; [|cbn; lia]. split; [lia|]. split; [rewrite insert_length; exact Ll|]. split; [rewrite hole_perm by (try lia; exact Hx); exact Pl|]. split; [intros i Hi; rewrite list_lookup_insert_ne by lia; auto|].
          intros le d L H. eapply down_inv_ext; [intros i _; apply hole_val; [lia|lia|exact Hx]|lia|]. apply (down_step le pos e p c); [auto|lia|exact Hce|exact Hcp|exact (Mx le d L)|]. rewrite Vp, Vc. apply (c_ge_false cmp le L). exact C.
      + pose proof (par_child p) as [Pc _]. destruct (lookup_lt_is_Some_2 l (2 * p + 1)) as [x Hx]; [lia|]. rewrite (vget_ok _ _ _ Hx). cbn [mbind res_bind].
        assert (Vc : forall d, val d (<[p := elt]> l) (2 * p + 1) = x) by (intros d; apply val_some; rewrite list_lookup_insert_ne by lia; exact Hx).
        assert (Only : forall s, 0 < s < e -> par s = p -> s = 2 * p + 1) by (intros s Hs Es; pose proof (par_spec s ltac:(lia)); lia).
        destruct (c_lt cmp elt x) eqn:C.
        * rewrite vset_ok by lia. cbn [mbind res_bind]. rewrite vset_ok by (rewrite insert_length; lia). cbn [mbind res_bind]. eexists. split; [reflexivity|].
          split; [rewrite hole_perm by (try lia; exact Hx); exact Pl|]. split; [intros i Hi; rewrite hole_outside by lia; auto|].
          intros le d L H. apply (down_stop le pos e (2 * p + 1)).
          -- eapply down_inv_ext; [intros i _; apply hole_val; [lia|lia|exact Hx]|lia|]. apply (down_step le pos e p); [auto|lia|lia|exact Pc| |rewrite Vp, Vc; apply (c_lt_true cmp le L); exact C].
             intros s Hs Es. rewrite (Only s Hs Es). apply le_refl. apply (or_total cmp le L).
          -- intros s Hs Es. pose proof (par_spec s ltac:(lia)). lia.
        * rewrite vset_ok by lia. cbn [mbind res_bind]. eexists. split; [reflexivity|]. split; [exact Pl|]. split; [exact Oi|]. intros le d L H. apply (down_stop le pos e p); [auto|].
          intros s Hs Es. rewrite (Only s Hs Es), Vc, Vp. apply (c_lt_false cmp le L). exact C.
      + rewrite vset_ok by lia. cbn [mbind res_bind]. eexists. split; [reflexivity|]. split; [exact Pl|]. split; [exact Oi|]. intros le d L H. apply (down_stop le pos e p); [auto|].
        intros s Hs Es. pose proof (par_spec s ltac:(lia)). lia.
    - split; [lia|]. split; [reflexivity|]. rewrite list_insert_id by exact Helt. split; [reflexivity|]. split; [auto|]. intros le d L H. split.
      + intros i Hi Hl Hne. apply H; lia.
      + intros c Hc Ec Hp0 Hl. pose proof (par_spec pos Hp0). lia.
    - cbn. lia.
  Qed.

  Lemma sift_bottom_ok data : data <> [] -> exists l, sift_down_to_bottom cmp data = Ok l /\ l ≡ₚ data /\
    forall le d, ordered cmp le -> heap_on le 1 (length data) (val d data) -> heap_on le 0 (length data) (val d l).
  Proof.
    intros Hne. assert (Hlen : 0 < length data) by (destruct data; [congruence|cbn; lia]). unfold sift_down_to_bottom. set (e := length data). destruct (lookup_lt_is_Some_2 data 0 Hlen) as [elt Helt]. rewrite (vget_ok _ _ _ Helt). cbn [mbind res_bind].
    match goal with |- context [rloop _ ?st _] => destruct (rloop_inv (fun '(l, p) => p < e /\ length l = e /\ <[p := elt]> l ≡ₚ data /\
      forall le d, ordered cmp le -> heap_on le 1 e (val d data) -> bot_inv le e p (val d (<[p := elt]> l)))
      (fun '(l, p) => p < e /\ length l = e /\ <[p := elt]> l ≡ₚ data /\ forall le d, ordered cmp le -> heap_on le 1 e (val d data) -> up_inv le e p (val d (<[p := elt]> l))) (fun s => e - s.2) st) with (fuel := S e) (s := (data, 0)) as ([l p] & E & Hp & Ll & Pl & Il) end.
    - intros [l p] (Hp & Ll & Pl & Il).
      destruct (Nat.leb_spec (2 * p + 1) (e - 2)) as [Hc|Hc]; [|destruct (Nat.eqb_spec (2 * p + 1) (e - 1)) as [Hc1|Hc1]].
      + destruct (lookup_lt_is_Some_2 l (2 * p + 1)) as [a Ha]; [lia|]. destruct (lookup_lt_is_Some_2 l (2 * p + 1 + 1)) as [b Hb]; [lia|].
        rewrite (vget_ok _ _ _ Ha), (vget_ok _ _ _ Hb). cbn [mbind res_bind]. remember (if c_le cmp a b then 2 * p + 1 + 1 else 2 * p + 1) as c eqn:Ec.
        assert (Hcc : c = 2 * p + 1 \/ c = 2 * p + 2) by (subst c; destruct (c_le cmp a b); lia). destruct (child_cases e p c ltac:(lia) Hc Hcc) as [Hce Hcp].
        destruct (lookup_lt_is_Some_2 l c) as [x Hx]; [lia|]. rewrite (vget_ok _ _ _ Hx). cbn [mbind res_bind]. rewrite vset_ok by lia. cbn [mbind res_bind]. eexists. split; [reflexivity|].
        split; [|cbn; lia]. split; [lia|]. split; [rewrite insert_length; exact Ll|]. split; [rewrite hole_perm by (try lia; exact Hx); exact Pl|].
        intros le d L H. eapply bot_inv_ext; [intros i _; apply hole_val; [lia|lia|exact Hx]|lia|]. apply (bot_step le e p c); [auto|exact Hce|exact Hcp|].
        eapply larger_child; [exact L|lia|exact Ha|exact Hb|exact Ec|exact Hx].
      + pose proof (par_child p) as [Pc _]. destruct (lookup_lt_is_Some_2 l (2 * p + 1)) as [x Hx]; [lia|]. rewrite (vget_ok _ _ _ Hx). cbn [mbind res_bind]. rewrite vset_ok by lia. cbn [mbind res_bind]. eexists. split; [reflexivity|].
        split; [lia|]. split; [rewrite insert_length; exact Ll|]. split; [rewrite hole_perm by (try lia; exact Hx); exact Pl|].
        intros le d L H. apply (bot_stop le).
        * eapply bot_inv_ext; [intros i _; apply hole_val; [lia|lia|exact Hx]|lia|]. apply (bot_step le e p); [auto|lia|exact Pc|]. intros s Hs Es. pose proof (par_spec s ltac:(lia)).
          assert (s = 2 * p + 1) as -> by lia. apply le_refl. apply (or_total cmp le L).
        * intros s Hs Es. pose proof (par_spec s ltac:(lia)). lia.
      + eexists. split; [reflexivity|]. split; [exact Hp|]. split; [exact Ll|]. split; [exact Pl|]. intros le d L H. apply (bot_stop le); [auto|]. intros s Hs Es. pose proof (par_spec s ltac:(lia)). lia.
    - split; [exact Hlen|]. split; [reflexivity|]. rewrite list_insert_id by exact Helt. split; [reflexivity|]. intros le d L H. split.
      + intros i Hi Hne0 Hp0. apply H; lia.
      + lia.
    - cbn. lia.
    - rewrite E. cbn [mbind res_bind]. rewrite vset_ok by lia. cbn [mbind res_bind]. destruct (sift_up_ok e (<[p := elt]> l) p) as (l' & -> & P' & _ & I'); [rewrite insert_length; lia|].
      exists l'. split; [reflexivity|]. split; [rewrite P'; exact Pl|]. auto.
  Qed.
End Sift.

(** ** The operations *)
Lemma heap_order_on {A} (le : A -> A -> Prop) (d : A) l : heap_order le l <-> heap_on le 0 (length l) (val d l).
Proof.
  split.
  - intros H i Hi _. pose proof (par_spec i ltac:(lia)). destruct (lookup_lt_is_Some_2 l i) as [x Hx]; [lia|]. destruct (lookup_lt_is_Some_2 l (par i)) as [y Hy]; [lia|].
    rewrite (val_some d l i x Hx), (val_some d l (par i) y Hy). exact (H i x y ltac:(lia) Hx Hy).
  - intros H i x y Hi Hx Hy. pose proof (lookup_lt_Some _ _ _ Hx). specialize (H i ltac:(lia) ltac:(lia)). rewrite (val_some d l i x Hx) in H. change ((i - 1) / 2) with (par i) in Hy. rewrite (val_some d l (par i) y Hy) in H. exact H.
Qed.
Lemma heap_order_nil {A} (le : A -> A -> Prop) : heap_order le [].
Proof. intros i x y _ H. discriminate H. Qed.
Lemma heap_top {A} (cmp : A -> A -> comparison) le l x : ordered cmp le -> heap_order le l -> l !! 0 = Some x -> forall y, y ∈ l -> le y x.
Proof.
  intros O H Hx y Hy. apply (heap_order_on le x) in H. apply elem_of_list_lookup in Hy as [i Hi]. pose proof (heap_root le (or_trans _ _ O) (or_total cmp le O) 0 _ _ H eq_refl i (lookup_lt_Some _ _ _ Hi)) as R.
  rewrite (val_some x l i y Hi), (val_some x l 0 x Hx) in R. exact R.
Qed.
Section Ops.
  Context {A : Type} (cmp : A -> A -> comparison).
  Lemma push_ok data x : exists l, bin_push cmp data x = Ok l /\ l ≡ₚ x :: data /\ forall le, ordered cmp le -> heap_order le data -> heap_order le l.
  Proof.
    unfold bin_push. destruct (sift_up_ok cmp (S (length data)) (data ++ [x]) (length data)) as (l & -> & P & _ & I); [rewrite app_length; cbn; lia|]. exists l. split; [reflexivity|].
    split; [rewrite P; symmetry; apply Permutation_cons_append|]. intros le O H. apply (heap_order_on le x). rewrite (Permutation_length P), app_length, Nat.add_1_r. apply I; [exact O|]. apply (heap_order_on le x) in H.
    assert (V : forall i, i < length data -> val x (data ++ [x]) i = val x data i) by (intros i Hi; unfold val; rewrite lookup_app_l by exact Hi; reflexivity). split.
    - intros i Hi Hne. pose proof (par_spec i ltac:(lia)). rewrite !V by lia. apply H; lia.
    - intros c Hc Ec. pose proof (par_spec c ltac:(lia)). lia.
  Qed.
  Lemma pop_ok data : match data with
    | [] => bin_pop cmp data = Ok (None, [])
    | top :: _ => exists l, bin_pop cmp data = Ok (Some top, l) /\ data ≡ₚ top :: l /\ forall le, ordered cmp le -> heap_order le data -> heap_order le l
    end.
  Proof.
    unfold bin_pop. destruct (rev data) as [|item r] eqn:E.
    - apply (f_equal (@rev A)) in E. rewrite rev_involutive in E. subst data. reflexivity.
    - apply (f_equal (@rev A)) in E. rewrite rev_involutive in E. cbn [rev] in E. destruct (rev r) as [|top rest]; subst data; cbn [app].
      + exists []. split; [reflexivity|]. split; [reflexivity|]. intros. apply heap_order_nil.
      + destruct (sift_bottom_ok cmp (item :: rest)) as (l & -> & P & I); [discriminate|]. cbn [mbind res_bind]. exists l. split; [reflexivity|].
        split; [rewrite P, <- Permutation_cons_append; reflexivity|]. intros le O H. apply (heap_order_on le top). rewrite (Permutation_length P). apply I; [exact O|]. apply (heap_order_on le top) in H.
        assert (V : forall i, 0 < i < length (item :: rest) -> val top (item :: rest) i = val top (top :: rest ++ [item]) i).
        { intros i Hi. destruct i as [|i]; [lia|]. cbn [length] in Hi. unfold val. change ((top :: rest ++ [item]) !! S i) with ((rest ++ [item]) !! i). rewrite lookup_app_l by lia. reflexivity. }
        intros i Hi Hp. pose proof (par_spec i ltac:(lia)). rewrite !V by lia. apply H; [|lia]. cbn [length] in *. rewrite app_length. cbn. lia.
  Qed.
  Lemma rebuild_ok data : exists l, bin_rebuild cmp data = Ok l /\ l ≡ₚ data /\ forall le, ordered cmp le -> heap_order le l.
  Proof.
    assert (G : forall m l, length l = length data -> m <= length data -> exists l', rfor (rev (seq 0 m)) (fun n data => sift_down_range cmp data n (length data)) l = Ok l' /\ l' ≡ₚ l /\
      forall le d, ordered cmp le -> heap_on le m (length data) (val d l) -> heap_on le 0 (length data) (val d l')).
    { induction m as [|m IH]; intros l Ll Hm; [exists l; split; [reflexivity|]; split; [reflexivity|auto]|]. rewrite seq_S, rev_app_distr. cbn [rev app rfor Nat.add].
      destruct (sift_down_ok cmp (length l) l m) as (l1 & -> & P1 & _ & I1); [lia|]. cbn [mbind res_bind]. destruct (IH l1) as (l2 & E2 & P2 & I2); [rewrite P1; exact Ll|lia|]. exists l2. split; [exact E2|].
      split; [rewrite P2; exact P1|]. intros le d O H. apply I2; [exact O|]. rewrite <- Ll. apply I1; [exact O|]. rewrite Ll. exact H. }
    destruct (G (length data / 2) data eq_refl) as (l & E & P & I); [apply Nat.div_le_upper_bound; lia|]. exists l. split; [exact E|]. split; [exact P|]. intros le O. destruct l as [|d l'] eqn:El; [apply heap_order_nil|]. rewrite <- El in *.
    apply (heap_order_on le d). rewrite (Permutation_length P). apply I; [exact O|]. intros i Hi Hp. exfalso. pose proof (par_spec i ltac:(lia)). pose proof (Nat.div_mod (length data) 2 ltac:(lia)). pose proof (Nat.mod_upper_bound (length data) 2 ltac:(lia)). lia.
  Qed.
  Lemma rebuild_tail_ok data start : start <= length data -> exists l, bin_rebuild_tail cmp data start = Ok l /\ l ≡ₚ data /\
    forall le d, ordered cmp le -> heap_on le 0 start (val d data) -> heap_order le l.
  Proof.
    intros Hs. unfold bin_rebuild_tail. destruct (Nat.eqb_spec start (length data)) as [->|Hne].
    - exists data. split; [reflexivity|]. split; [reflexivity|]. intros le d O H. apply (heap_order_on le d). exact H.
    - match goal with |- context [if ?b then bin_rebuild _ _ else _] => destruct b end.
      + destruct (rebuild_ok data) as (l & E & P & I). exists l. split; [exact E|]. split; [exact P|]. auto.
      + destruct (rfor_range_inv (fun i l => l ≡ₚ data /\ (forall j, i <= j -> l !! j = data !! j) /\ forall le d, ordered cmp le -> heap_on le 0 start (val d data) -> heap_on le 0 i (val d l)) start (length data)
          (fun i data => sift_up cmp data i) data) as (l & E & P & _ & I); [lia| | |].
        * split; [reflexivity|]. auto.
        * intros i l Hi (P & Ou & I). destruct (sift_up_ok cmp (S i) l i) as (l' & E' & P' & O' & I'); [rewrite P; lia|]. exists l'. split; [exact E'|]. split; [rewrite P'; exact P|].
          split; [intros j Hj; rewrite O' by lia; apply Ou; lia|]. intros le d O H. rewrite Nat.add_1_r. apply I'; [exact O|]. specialize (I le d O H). split.
          -- intros j Hj Hne'. apply I; lia.
          -- intros c Hc Ec. pose proof (par_spec c ltac:(lia)). lia.
        * exists l. split; [exact E|]. split; [exact P|]. intros le d O H. apply (heap_order_on le d). rewrite (Permutation_length P). apply I; assumption.
  Qed.
  Lemma append_ok data other : exists l, bin_append cmp data other = Ok (l, []) /\ l ≡ₚ data ++ other /\ forall le, ordered cmp le -> heap_order le data -> heap_order le other -> heap_order le l.
  Proof.
    unfold bin_append.
    assert (G : forall a b, exists l, (data ← bin_rebuild_tail cmp (a ++ b) (length a); Ok (data, @nil A)) = Ok (l, []) /\ l ≡ₚ a ++ b /\ forall le, ordered cmp le -> heap_order le a -> heap_order le l).
    { intros a b. destruct (rebuild_tail_ok (a ++ b) (length a)) as (l & -> & P & I); [rewrite app_length; lia|]. cbn [mbind res_bind]. exists l. split; [reflexivity|]. split; [exact P|]. intros le O H.
      destruct l as [|d l]; [apply heap_order_nil|]. apply (I le d O). apply (heap_order_on le d) in H. eapply heap_on_ext; [|exact H]. intros i Hi. unfold val. rewrite lookup_app_l by exact Hi. reflexivity. }
    destruct (length data <? length other).
    - destruct (G other data) as (l & E & P & I). exists l. split; [exact E|]. split; [rewrite P; apply Permutation_app_comm|]. auto.
    - destruct (G data other) as (l & E & P & I). exists l. split; [exact E|]. split; [exact P|]. auto.
  Qed.
  Lemma sorted_ok data : exists l, bin_into_sorted_vec cmp data = Ok l /\ l ≡ₚ data /\ forall le, ordered cmp le -> heap_order le data -> StronglySorted le l.
  Proof.
    set (body := fun last data => a ← vget data 0; b ← vget data last; data ← vset data 0 b; data ← vset data last a; sift_down_range cmp data 0 last).
    assert (G : forall k l, k <= length l -> exists l', rfor (rev (seq 1 (k - 1))) body l = Ok l' /\ l' ≡ₚ l /\
      forall le d, ordered cmp le -> heap_on le 0 k (val d l) -> StronglySorted le (drop k l) -> (forall x y, x ∈ take k l -> y ∈ drop k l -> le x y) -> StronglySorted le l').
    { induction k as [|k IH]; intros l Hk.
      - exists l. split; [reflexivity|]. split; [reflexivity|]. intros le d O _ H _. rewrite drop_0 in H. exact H.
      - destruct k as [|k].
        + exists l. split; [reflexivity|]. split; [reflexivity|]. intros le d O _ H1 H2. destruct l as [|x l]; [constructor|]. cbn in H1, H2. constructor; [rewrite drop_0 in H1; exact H1|]. apply Forall_forall. intros y Hy. apply H2; [left|rewrite drop_0; exact Hy].
        + replace (S (S k) - 1) with (S k) by lia. rewrite seq_S, rev_app_distr. cbn [rev app rfor Nat.add].
          destruct (lookup_lt_is_Some_2 l 0) as [a Ha]; [lia|]. destruct (lookup_lt_is_Some_2 l (S k)) as [b Hb]; [lia|]. set (l2 := <[S k := a]> (<[0 := b]> l)).
          assert (body (S k) l = sift_down_range cmp l2 0 (S k)) as ->.
          { unfold body. rewrite (vget_ok _ _ _ Ha), (vget_ok _ _ _ Hb). cbn [mbind res_bind]. rewrite vset_ok by lia. cbn [mbind res_bind]. rewrite vset_ok by (rewrite insert_length; lia). reflexivity. }
          assert (P2 : l2 ≡ₚ l) by (unfold l2; rewrite hole_perm by (try lia; exact Hb); rewrite list_insert_id by exact Ha; reflexivity).
          destruct (sift_down_ok cmp (S k) l2 0) as (l3 & -> & P3 & O3 & I3); [rewrite P2; lia|]. cbn [mbind res_bind]. destruct (IH l3) as (l4 & E4 & P4 & I4); [rewrite P3, P2; lia|].
          replace (S k - 1) with k in E4 by lia. exists l4. split; [exact E4|]. split; [rewrite P4, P3; exact P2|]. intros le d O H1 H2 H3.
          assert (D2 : drop (S k) l2 = a :: drop (S (S k)) l).
          { rewrite (drop_S l2 a (S k)) by (unfold l2; apply list_lookup_insert; rewrite insert_length; lia). f_equal. unfold l2. rewrite !drop_insert_gt by lia. reflexivity. }
          assert (D3 : drop (S k) l3 = drop (S k) l2) by (apply list_eq; intros i; rewrite !lookup_drop; apply O3; lia).
          assert (T3 : take (S k) l3 ≡ₚ take (S k) l2) by (apply (Permutation_app_inv_r (drop (S k) l2)); rewrite <- D3 at 1; rewrite !take_drop; exact P3).
          assert (T2 : take (S k) l2 ++ [a] ≡ₚ take (S (S k)) l).
          { apply (Permutation_app_inv_r (drop (S (S k)) l)). rewrite <- app_assoc. cbn [app]. rewrite <- D2, !take_drop. exact P2. }
          assert (Ta : a ∈ take (S (S k)) l) by (rewrite <- T2; apply elem_of_app; right; left).
          assert (Top : forall x, x ∈ take (S (S k)) l -> le x a).
          { intros x Hx. apply elem_of_list_lookup in Hx as [i Hi]. apply lookup_take_Some in Hi as [Hi Hlt]. pose proof (heap_root le (or_trans _ _ O) (or_total cmp le O) 0 _ _ H1 eq_refl i Hlt) as R.
            rewrite (val_some d l i x Hi), (val_some d l 0 a Ha) in R. exact R. }
          apply (I4 le d O).
          * apply I3; [exact O|]. intros i Hi Hp. pose proof (par_spec i ltac:(lia)).
            assert (V : forall j, 0 < j < S k -> val d l2 j = val d l j) by (intros j Hj; unfold val, l2; rewrite hole_outside by lia; reflexivity). rewrite !V by lia. apply H1; lia.
          * rewrite D3, D2. constructor; [exact H2|]. apply Forall_forall. intros y Hy. apply H3; assumption.
          * intros x y Hx Hy. rewrite T3 in Hx. assert (Hx' : x ∈ take (S (S k)) l) by (rewrite <- T2; apply elem_of_app; left; exact Hx). rewrite D3, D2 in Hy. apply elem_of_cons in Hy as [->|Hy]; [apply Top; exact Hx'|apply H3; assumption]. }
    destruct (G (length data) data (le_n _)) as (l & E & P & I). exists l. split; [exact E|]. split; [exact P|]. intros le O H. destruct data as [|d data'] eqn:Ed; [symmetry in P; apply Permutation_nil in P; subst; constructor|]. rewrite <- Ed in *.
    apply (I le d O); [apply heap_order_on; exact H|rewrite drop_ge by lia; constructor|]. intros x y _ Hy. rewrite drop_ge in Hy by lia. inversion Hy.
  Qed.
End Ops.
