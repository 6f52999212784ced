(** Proof that Dinic's algorithm computes a maximum flow. *)
From stdpp Require Import relations.
From Verif Require Import Prelude IntModel ArraySpec DinicModel DinicSpec.
Open Scope Z_scope.

(** ** Sums over an initial segment *)
Fixpoint zsum (f : nat -> Z) (m : nat) : Z :=
  match m with O => 0 | S m => zsum f m + f m end.
Lemma zsum_ext f g m : (forall k, (k < m)%nat -> f k = g k) -> zsum f m = zsum g m.
Proof. induction m as [|m IH]; intros H; cbn [zsum]; [reflexivity|]. rewrite IH by (intros; apply H; lia). rewrite H by lia. reflexivity. Qed.
Lemma zsum_update f g m k0 : (k0 < m)%nat -> (forall k, (k < m)%nat -> k <> k0 -> f k = g k) ->
  zsum g m = zsum f m + (g k0 - f k0).
Proof.
  induction m as [|m IH]; intros Hk H; [lia|]. cbn [zsum].
  destruct (decide (k0 = m)) as [->|Hne].
  - rewrite (zsum_ext f g m); [lia|]. intros k Hk'. apply H; lia.
  - rewrite (H m) by lia. rewrite IH by (try lia; intros; apply H; lia). lia.
Qed.
Lemma zsum_add f g m : zsum (fun k => f k + g k) m = zsum f m + zsum g m.
Proof. induction m; cbn [zsum]; lia. Qed.
Lemma zsum_0 m : zsum (fun _ => 0) m = 0.
Proof. induction m; cbn [zsum]; lia. Qed.
Lemma zsum_S_l f m : zsum f (S m) = f 0%nat + zsum (fun k => f (S k)) m.
Proof. induction m as [|m IH]; cbn [zsum] in *; lia. Qed.
Lemma zsum_single f m k0 : (k0 < m)%nat -> (forall k, (k < m)%nat -> k <> k0 -> f k = 0) -> zsum f m = f k0.
Proof.
  intros Hk H. rewrite (zsum_update (fun _ => 0) f m k0 Hk); [rewrite zsum_0; lia|]. intros; symmetry; auto.
Qed.

(** ** The partner j ^ 1 of an edge index *)
Definition partner (j : nat) : nat := Nat.lxor j 1.
Lemma partner_even k : partner (2 * k) = (2 * k + 1)%nat.
Proof.
  unfold partner. apply Nat.bits_inj. intros [|i].
  - rewrite Nat.lxor_spec, Nat.testbit_even_0, Nat.testbit_odd_0. reflexivity.
  - rewrite Nat.lxor_spec, Nat.testbit_even_succ, Nat.testbit_odd_succ by lia.
    change 1%nat with (2 * 0 + 1)%nat at 1. rewrite Nat.testbit_odd_succ by lia. rewrite Nat.bits_0. apply xorb_false_r.
Qed.
Lemma partner_odd k : partner (2 * k + 1) = (2 * k)%nat.
Proof.
  unfold partner. apply Nat.bits_inj. intros [|i].
  - rewrite Nat.lxor_spec, Nat.testbit_even_0, Nat.testbit_odd_0. reflexivity.
  - rewrite Nat.lxor_spec, Nat.testbit_even_succ, Nat.testbit_odd_succ by lia.
    change 1%nat with (2 * 0 + 1)%nat at 1. rewrite Nat.testbit_odd_succ by lia. rewrite Nat.bits_0. apply xorb_false_r.
Qed.
Lemma parity j : exists k, j = (2 * k)%nat \/ j = (2 * k + 1)%nat.
Proof. destruct (Nat.Even_or_Odd j) as [[k Hk]|[k Hk]]; exists k; lia. Qed.
Lemma partner_inv j : partner (partner j) = j.
Proof. destruct (parity j) as [k [-> | ->]]; rewrite ?partner_even, ?partner_odd, ?partner_even; reflexivity. Qed.
Lemma partner_ne j : partner j <> j.
Proof. destruct (parity j) as [k [-> | ->]]; rewrite ?partner_even, ?partner_odd; lia. Qed.
Lemma partner_lt j m : (j < 2 * m)%nat -> (partner j < 2 * m)%nat.
Proof. destruct (parity j) as [k [-> | ->]]; rewrite ?partner_even, ?partner_odd; lia. Qed.
Lemma half_even k : (2 * k / 2 = k)%nat.
Proof. rewrite Nat.mul_comm. apply Nat.div_mul. lia. Qed.
Lemma half_odd k : ((2 * k + 1) / 2 = k)%nat.
Proof. symmetry. apply (Nat.div_unique _ 2 k 1); lia. Qed.
Lemma even_even k : Nat.even (2 * k) = true.
Proof. apply Nat.even_spec. exists k. reflexivity. Qed.
Lemma even_odd k : Nat.even (2 * k + 1) = false.
Proof. rewrite <- Nat.negb_odd. replace (Nat.odd (2 * k + 1)) with true; [reflexivity|]. symmetry. apply Nat.odd_spec. exists k. reflexivity. Qed.

(** ** Edges: ends, residual capacities *)
Definition eends (es : list fedge) (j : nat) : nat * nat :=
  match es !! (j / 2)%nat with
  | Some (u, v, _) => if Nat.even j then (u, v) else (v, u)
  | None => (0%nat, 0%nat)
  end.
Definition esrc es j := (eends es j).1.
Definition eto es j := (eends es j).2.
Definition ecap (es : list fedge) (j : nat) : Z := match es !! (j / 2)%nat with Some (_, _, c) => c | None => 0 end.
Definition cap (e : list dedge) (j : nat) : Z := match e !! j with Some (_, c) => c | None => 0 end.

Lemma eends_even es k : eends es (2 * k) = match es !! k with Some (u, v, _) => (u, v) | None => (0%nat, 0%nat) end.
Proof. unfold eends. rewrite half_even, even_even. reflexivity. Qed.
Lemma eends_odd es k : eends es (2 * k + 1) = match es !! k with Some (u, v, _) => (v, u) | None => (0%nat, 0%nat) end.
Proof. unfold eends. rewrite half_odd, even_odd. reflexivity. Qed.
Lemma eends_partner es j : eends es (partner j) = (eto es j, esrc es j).
Proof.
  unfold eto, esrc. destruct (parity j) as [k [-> | ->]]; rewrite ?partner_even, ?partner_odd, ?eends_even, ?eends_odd;
    destruct (es !! k) as [[[u v] c]|]; reflexivity.
Qed.
Lemma esrc_partner es j : esrc es (partner j) = eto es j.
Proof. unfold esrc at 1. rewrite eends_partner. reflexivity. Qed.
Lemma eto_partner es j : eto es (partner j) = esrc es j.
Proof. unfold eto at 1. rewrite eends_partner. reflexivity. Qed.
Lemma ecap_partner es j : ecap es (partner j) = ecap es j.
Proof. unfold ecap. destruct (parity j) as [k [-> | ->]]; rewrite ?partner_even, ?partner_odd, ?half_even, ?half_odd; reflexivity. Qed.

(** The residual network is well formed over the network es. *)
Record ewf (es : list fedge) (e : list dedge) : Prop := {
  ewf_len : length e = (2 * length es)%nat;
  ewf_at : forall j, (j < 2 * length es)%nat -> e !! j = Some (eto es j, cap e j);
  ewf_nonneg : forall j, (j < 2 * length es)%nat -> 0 <= cap e j;
  ewf_pair : forall j, (j < 2 * length es)%nat -> cap e j + cap e (partner j) = ecap es j }.

(** Pushing a along j. *)
Definition push (es : list fedge) (e : list dedge) (j : nat) (a : Z) : list dedge :=
  <[partner j := (eto es (partner j), cap e (partner j) + a)]> (<[j := (eto es j, cap e j - a)]> e).
Lemma cap_push es e j a i : ewf es e -> (j < 2 * length es)%nat ->
  cap (push es e j a) i = if decide (i = j) then cap e j - a else if decide (i = partner j) then cap e (partner j) + a else cap e i.
Proof.
  intros H Hj. pose proof (partner_ne j). pose proof (partner_lt j _ Hj). unfold push, cap at 1.
  destruct (decide (i = j)) as [->|Hn].
  - rewrite list_lookup_insert_ne by done. rewrite list_lookup_insert; [reflexivity|]. rewrite (ewf_len es e H). exact Hj.
  - destruct (decide (i = partner j)) as [->|Hn'].
    + rewrite list_lookup_insert; [reflexivity|]. rewrite insert_length, (ewf_len es e H). exact H1.
    + rewrite !list_lookup_insert_ne by done. reflexivity.
Qed.
Lemma ewf_push es e j a : ewf es e -> (j < 2 * length es)%nat -> 0 <= a <= cap e j -> ewf es (push es e j a).
Proof.
  intros H Hj Ha. pose proof (partner_lt j _ Hj) as Hpl. pose proof (ewf_nonneg es e H _ Hpl) as Hnp. split.
  - unfold push. rewrite !insert_length. apply (ewf_len es e H).
  - intros i Hi. rewrite (cap_push es e j a i H Hj). unfold push.
    destruct (decide (i = partner j)) as [->|Hn'].
    + rewrite list_lookup_insert by (rewrite insert_length, (ewf_len es e H); lia).
      rewrite decide_False by apply partner_ne. reflexivity.
    + rewrite list_lookup_insert_ne by done. destruct (decide (i = j)) as [->|Hn].
      * apply list_lookup_insert. rewrite (ewf_len es e H). lia.
      * rewrite list_lookup_insert_ne by done. apply (ewf_at es e H i Hi).
  - intros i Hi. rewrite (cap_push es e j a i H Hj). pose proof (ewf_nonneg es e H i Hi).
    repeat case_decide; lia.
  - intros i Hi. rewrite !(cap_push es e j a _ H Hj). pose proof (ewf_pair es e H i Hi). pose proof (ewf_pair es e H j Hj).
    destruct (decide (i = j)) as [->|Hn].
    + rewrite decide_False by apply partner_ne. rewrite decide_True by done. lia.
    + destruct (decide (i = partner j)) as [->|Hn'].
      * rewrite partner_inv. rewrite decide_True by done. rewrite partner_inv in H0. lia.
      * rewrite decide_False by (intros <-; rewrite partner_inv in *; congruence).
        rewrite decide_False by (intros E; apply Hn; rewrite <- (partner_inv i), E; apply partner_inv). exact H0.
Qed.

(** ** Net outflow *)
Definition ind (u x : nat) : Z := if (u =? x)%nat then 1 else 0.
Definition netf (es : list fedge) (e : list dedge) (x : nat) : Z :=
  zsum (fun k => cap e (2 * k + 1) * (ind (esrc es (2 * k)) x - ind (eto es (2 * k)) x)) (length es).
Lemma netf_push es e j a x : ewf es e -> (j < 2 * length es)%nat ->
  netf es (push es e j a) x = netf es e x + a * (ind (esrc es j) x - ind (eto es j) x).
Proof.
  intros H Hj. unfold netf. destruct (parity j) as [k Hk].
  rewrite (zsum_update (fun k => cap e (2 * k + 1) * (ind (esrc es (2 * k)) x - ind (eto es (2 * k)) x)) _ (length es) k).
  - destruct Hk as [-> | ->]; rewrite (cap_push es e _ a _ H Hj), ?partner_even, ?partner_odd.
    + rewrite decide_False by lia. rewrite decide_True by lia. lia.
    + rewrite decide_True by done. rewrite <- (partner_even k), esrc_partner, eto_partner. lia.
  - lia.
  - intros k' Hk' Hne. rewrite (cap_push es e j a _ H Hj).
    destruct Hk as [-> | ->]; rewrite ?partner_even, ?partner_odd; rewrite !decide_False by lia; reflexivity.
Qed.

(** ** Levels *)
Definition hl (h : list Z) (x : nat) : Z := match h !! x with Some z => z | None => -1 end.
Definition lstep (es : list fedge) (h : list Z) (e : list dedge) (x y : nat) : Prop :=
  exists j, (j < 2 * length es)%nat /\ esrc es j = x /\ eto es j = y /\ 0 < cap e j /\ hl h y = hl h x + 1.
Definition alive es h e t x : Prop := rtc (lstep es h e) x t.
(** Between e and e' only level edges lost and only their partners gained capacity. *)
Definition lev_le (es : list fedge) (h : list Z) (e e' : list dedge) : Prop :=
  forall j, (j < 2 * length es)%nat -> cap e' j <= cap e j \/ (0 <= hl h (eto es j) /\ hl h (esrc es j) = hl h (eto es j) + 1).
Lemma lev_le_refl es h e : lev_le es h e e.
Proof. intros j Hj. left. lia. Qed.
Lemma lev_le_trans es h e1 e2 e3 : lev_le es h e1 e2 -> lev_le es h e2 e3 -> lev_le es h e1 e3.
Proof. intros A B j Hj. destruct (A j Hj), (B j Hj); auto. left. lia. Qed.
Lemma alive_mono es h e e' t x : lev_le es h e e' -> alive es h e' t x -> alive es h e t x.
Proof.
  intros H Ha. unfold alive in *. induction Ha as [x|x y z Hxy _ IH]; [reflexivity|].
  eapply rtc_l; [|exact IH]. destruct Hxy as (j & Hj & Hs & Ht & Hc & Hl). exists j. repeat split; auto.
  destruct (H j Hj) as [Hle|[_ E]]; [lia|]. subst. lia.
Qed.

(** Adjacency lists index exactly the residual edges leaving each vertex. *)
Record gwf (es : list fedge) (g : list (list nat)) (n : nat) : Prop := {
  gwf_len : length g = n;
  gwf_at : forall x js j, g !! x = Some js -> (j ∈ js <-> (j < 2 * length es)%nat /\ esrc es j = x);
  gwf_es : forall u v c, (u, v, c) ∈ es -> (u < n)%nat /\ (v < n)%nat }.
Lemma gwf_ends es g n j : gwf es g n -> (j < 2 * length es)%nat -> (esrc es j < n)%nat /\ (eto es j < n)%nat.
Proof.
  intros H Hj. unfold esrc, eto, eends.
  assert (j / 2 < length es)%nat as Hk by (apply Nat.div_lt_upper_bound; lia).
  destruct (lookup_lt_is_Some_2 _ _ Hk) as [[[u v] c] E]. rewrite E.
  destruct (gwf_es es g n H u v c (elem_of_list_lookup_2 _ _ _ E)).
  destruct (Nat.even j); cbn; lia.
Qed.

(** ** dfs *)
Section phase.
  Context (T : ity) (HTm : it_min T <= 0).
  Context (es : list fedge) (g : list (list nat)) (n : nat) (Hg : gwf es g n).
  Context (Hcap : forall j, ecap es j <= it_max T).
  Context (h : list Z) (Hhl : length h = n) (Hhb : forall x, hl h x < Z.of_nat n) (Hn : Z.of_nat n <= 2 ^ 31 - 1).
  Context (t : nat).

  (** Edges before the cursor are of no use any more. *)
  Definition kinv (e : list dedge) (cur : list nat) : Prop :=
    forall x js i j c, g !! x = Some js -> cur !! x = Some c -> (i < c)%nat -> js !! i = Some j ->
      0 < cap e j -> hl h (eto es j) = hl h x + 1 -> ~ alive es h e t (eto es j).

  Record dpost (u : nat) (f : Z) (e : list dedge) (cur : list nat) (a : Z) (e' : list dedge) (cur' : list nat) : Prop := {
    dp_a : 0 <= a <= f;
    dp_wf : ewf es e';
    dp_cl : length cur' = length cur;
    dp_net : forall x, netf es e' x = netf es e x + a * (ind u x - ind t x);
    dp_fr : forall j, (j < 2 * length es)%nat -> cap e' j <> cap e j -> hl h u <= hl h (esrc es j) /\ hl h u <= hl h (eto es j);
    dp_le : lev_le es h e e';
    dp_cur : forall x, cur' !! x <> cur !! x -> hl h u <= hl h x;
    dp_k : kinv e' cur';
    dp_same : a = 0 -> e' = e }.

  Lemma hl_lookup x : (x < n)%nat -> h !! x = Some (hl h x).
  Proof. intros Hx. unfold hl. destruct (lookup_lt_is_Some_2 h x ltac:(lia)) as [z E]. rewrite E. reflexivity. Qed.

  Lemma kinv_mono e e' cur : kinv e cur -> lev_le es h e e' -> kinv e' cur.
  Proof.
    intros H Hle x js i j c Hx Hc Hi Hj Hcp Hl Ha.
    destruct (proj1 (gwf_at es g n Hg x js j Hx) (elem_of_list_lookup_2 _ _ _ Hj)) as [Hjl Hs].
    eapply (H x js i j c); eauto.
    - destruct (Hle j Hjl) as [Hl'|[_ E]]; [lia|]. subst x. lia.
    - eapply alive_mono; eauto.
  Qed.

  Lemma insert_push e j a : ewf es e -> (j < 2 * length es)%nat ->
    <[Nat.lxor j 1 := (eto es (partner j), cap (<[j:=(eto es j, cap e j - a)]> e) (partner j) + a)]> (<[j:=(eto es j, cap e j - a)]> e)
    = push es e j a.
  Proof.
    intros H Hj. unfold push. f_equal. f_equal. f_equal. unfold cap at 1. rewrite list_lookup_insert_ne; [reflexivity|].
    intros E. symmetry in E. revert E. apply partner_ne.
  Qed.

  Lemma push_0 e j : ewf es e -> (j < 2 * length es)%nat -> push es e j 0 = e.
  Proof.
    intros H Hj. unfold push. pose proof (ewf_at es e H j Hj) as E.
    rewrite Z.sub_0_r, Z.add_0_r. rewrite (list_insert_id e j) by exact E.
    apply list_insert_id. apply (ewf_at es e H). apply partner_lt. exact Hj.
  Qed.

  (** The loop of dfs, given that the recursive calls are right. *)
  Definition linv (u : nat) (f : Z) (js : list nat) (e : list dedge) (cur : list nat) (m : nat)
      (s : Z * nat * list dedge * list nat) : Prop :=
    let '(r, i, e1, cur1) := s in
    0 < r /\ dpost u f e cur (f - r) e1 cur1 /\ cur1 !! u = Some i /\ (m = length js - i)%nat.

  Lemma dfs_step_ok rec u f js e cur :
    (u < n)%nat -> u <> t -> 0 <= hl h u -> g !! u = Some js -> f <= it_max T -> length cur = n ->
    (forall v f' e1 cur1, (v < n)%nat -> hl h v = hl h u + 1 -> 0 < f' <= it_max T -> ewf es e1 -> length cur1 = n -> kinv e1 cur1 ->
       exists a e' cur', rec v f' e1 cur1 = Ok (a, (e', cur')) /\ dpost v f' e1 cur1 a e' cur' /\
         (a < f' -> ~ alive es h e' t v)) ->
    forall m s, linv u f js e cur m s ->
      exists o, dfs_step T rec g h u s = Ok o /\
        match o with
        | inl s' => exists m', (m' < m)%nat /\ linv u f js e cur m' s'
        | inr (r, (e', cur')) => 0 <= r /\ dpost u f e cur (f - r) e' cur' /\ (0 < r -> ~ alive es h e' t u)
        end.
  Proof.
    intros Hu Hut Hhu Hjs Hf Hcl Hrec m [[[r i] e1] cur1] (Hr & HP & Hci & Hm).
    unfold dfs_step. rewrite (vget_ok g u js Hjs). cbn [mbind res_bind].
    pose proof (dp_wf _ _ _ _ _ _ _ HP) as Hwf.
    destruct (Nat.ltb_spec i (length js)) as [Hi|Hi].
    2:{ eexists. split; [reflexivity|]. cbn. split; [lia|]. split; [exact HP|]. intros _ Ha.
        unfold alive in Ha. apply rtc_inv in Ha as [E|(y & Hxy & Hyz)]; [congruence|].
        destruct Hxy as (j & Hj & Hs & Ht & Hc & Hl).
        assert (j ∈ js) as [i' Hi']%elem_of_list_lookup by (apply (gwf_at es g n Hg u js j Hjs); auto).
        apply (dp_k _ _ _ _ _ _ _ HP u js i' j i Hjs Hci); auto.
        - apply lookup_lt_Some in Hi'. lia.
        - rewrite Ht. exact Hl.
        - rewrite Ht. exact Hyz. }
    destruct (vget_lt js i Hi) as (j & Ej & Hj). rewrite Ej. cbn [mbind res_bind].
    destruct (proj1 (gwf_at es g n Hg u js j Hjs) (elem_of_list_lookup_2 _ _ _ Hj)) as [Hjl Hs].
    destruct (gwf_ends es g n j Hg Hjl) as [_ Hvn].
    rewrite (vget_ok e1 j _ (ewf_at es e1 Hwf j Hjl)). cbn [mbind res_bind].
    set (v := eto es j) in *. set (c := cap e1 j) in *.
    assert ((if 0 <? c then hv ← vget h v; hu ← vget h u; d ← iadd i32 hu 1; Ok (hv =? d) else Ok false)
            = Ok ((0 <? c) && (hl h v =? hl h u + 1))) as ->.
    { destruct (0 <? c); [|reflexivity]. rewrite (vget_ok h v _ (hl_lookup v Hvn)), (vget_ok h u _ (hl_lookup u Hu)). cbn [mbind res_bind].
      rewrite iadd_ok; [reflexivity|]. pose proof (Hhb u). unfold in_ty, it_min, it_max, i32; cbn. lia. }
    cbn [mbind res_bind].
    pose proof (dp_cl _ _ _ _ _ _ _ HP) as Hcl1.
    destruct ((0 <? c) && (hl h v =? hl h u + 1)) eqn:Eb.
    - apply andb_prop in Eb as [Hc Hl]. apply Z.ltb_lt in Hc. apply Z.eqb_eq in Hl.
      pose proof (ewf_pair es e1 Hwf j Hjl) as Hpair. pose proof (Hcap j) as Hcj.
      pose proof (ewf_nonneg es e1 Hwf (partner j) (partner_lt _ _ Hjl)) as Hpn.
      fold c in Hpair.
      pose proof (dp_a _ _ _ _ _ _ _ HP) as Har.
      destruct (Hrec v (Z.min r c) e1 cur1 Hvn Hl ltac:(lia) Hwf ltac:(lia) (dp_k _ _ _ _ _ _ _ HP))
        as (a & e2 & cur2 & Er & HP2 & Hdead).
      rewrite Er. cbn [mbind res_bind].
      pose proof (dp_wf _ _ _ _ _ _ _ HP2) as Hwf2. pose proof (dp_a _ _ _ _ _ _ _ HP2) as Ha.
      (* j and its partner are untouched by the recursive call *)
      assert (cap e2 j = c) as Hc2.
      { destruct (decide (cap e2 j = c)) as [|Hne]; [assumption|exfalso].
        destruct (dp_fr _ _ _ _ _ _ _ HP2 j Hjl Hne) as [Hx _]. rewrite Hs in Hx. lia. }
      assert (cap e2 (partner j) = cap e1 (partner j)) as Hp2.
      { destruct (decide (cap e2 (partner j) = cap e1 (partner j))) as [|Hne]; [assumption|exfalso].
        destruct (dp_fr _ _ _ _ _ _ _ HP2 (partner j) (partner_lt _ _ Hjl) Hne) as [_ Hx]. rewrite eto_partner, Hs in Hx. lia. }
      rewrite (vget_ok e2 j _ (ewf_at es e2 Hwf2 j Hjl)). cbn [mbind res_bind fst snd].
      rewrite (isub_ok T (cap e2 j) a) by (unfold in_ty; lia). cbn [mbind res_bind].
      rewrite (vset_ok e2 j) by (rewrite (ewf_len es e2 Hwf2); lia). cbn [mbind res_bind].
      rewrite (vget_ok _ (Nat.lxor j 1) (eto es (partner j), cap e2 (partner j))).
      2:{ rewrite list_lookup_insert_ne by (intros E; symmetry in E; revert E; apply partner_ne).
          apply (ewf_at es e2 Hwf2). apply partner_lt. exact Hjl. }
      cbn [mbind res_bind fst snd]. rewrite (iadd_ok T (cap e2 (partner j)) a) by (unfold in_ty; lia). cbn [mbind res_bind].
      rewrite (vset_ok _ (Nat.lxor j 1)) by (rewrite insert_length, (ewf_len es e2 Hwf2); apply partner_lt; lia). cbn [mbind res_bind].
      change (<[Nat.lxor j 1:=(eto es (partner j), cap e2 (partner j) + a)]> (<[j:=(eto es j, cap e2 j - a)]> e2)) with (push es e2 j a).
      rewrite isub_ok by (unfold in_ty; lia). cbn [mbind res_bind].
      assert (ewf es (push es e2 j a)) as Hwf3 by (apply ewf_push; [assumption..|lia]).
      assert (lev_le es h e2 (push es e2 j a)) as Hle3.
      { intros i' Hi'. rewrite (cap_push es e2 j a i' Hwf2 Hjl). destruct (decide (i' = j)) as [->|]; [left; lia|].
        destruct (decide (i' = partner j)) as [->|]; [right|left; lia]. rewrite esrc_partner, eto_partner, Hs. fold v. lia. }
      assert (dpost u f e cur (f - (r - a)) (push es e2 j a) cur2) as HP3.
      { destruct HP, HP2. split.
        - lia.
        - exact Hwf3.
        - lia.
        - intros x. rewrite (netf_push es e2 j a x Hwf2 Hjl), Hs. fold v. rewrite dp_net1, dp_net0. lia.
        - intros i' Hi'. rewrite (cap_push es e2 j a i' Hwf2 Hjl). intros Hne.
          destruct (decide (i' = j)) as [->|].
          { rewrite Hs. fold v. lia. }
          destruct (decide (i' = partner j)) as [->|].
          { rewrite esrc_partner, eto_partner, Hs. fold v. lia. }
          destruct (decide (cap e1 i' = cap e i')) as [E1|E1].
          + rewrite <- E1 in Hne. destruct (dp_fr1 i' Hi' Hne). lia.
          + apply dp_fr0; auto.
        - eapply lev_le_trans; [exact dp_le0|]. eapply lev_le_trans; [exact dp_le1|exact Hle3].
        - intros x Hx. destruct (decide (cur1 !! x = cur !! x)) as [E1|E1].
          + rewrite <- E1 in Hx. specialize (dp_cur1 x Hx). lia.
          + apply dp_cur0; auto.
        - eapply kinv_mono; eauto.
        - intros E. assert (a = 0) as -> by lia. rewrite push_0 by assumption. rewrite dp_same1 by reflexivity. apply dp_same0. lia. }
      assert (cur2 !! u = Some i) as Hci2.
      { destruct (decide (cur2 !! u = cur1 !! u)) as [E|E]; [congruence|exfalso].
        pose proof (dp_cur _ _ _ _ _ _ _ HP2 u E). lia. }
      destruct (Z.eqb_spec (r - a) 0) as [Hz|Hz].
      + eexists. split; [reflexivity|]. cbn. split; [lia|]. split; [exact HP3|lia].
      + rewrite vset_ok by (apply lookup_lt_Some in Hci2; lia). cbn [mbind res_bind].
        eexists. split; [reflexivity|]. exists (length js - (i + 1))%nat. split; [lia|].
        split; [lia|]. split; [|split; [apply list_lookup_insert; apply lookup_lt_Some in Hci2; lia|reflexivity]].
        destruct HP3. split; auto.
        * rewrite insert_length. auto.
        * intros x Hx. destruct (decide (x = u)) as [->|Hne]; [lia|]. rewrite list_lookup_insert_ne in Hx by done. auto.
        * intros x js' i' j' c' Hx Hc' Hi' Hj' Hcp Hl' Hal.
          destruct (decide (x = u)) as [->|Hne].
          2:{ rewrite list_lookup_insert_ne in Hc' by done. exact (dp_k0 x js' i' j' c' Hx Hc' Hi' Hj' Hcp Hl' Hal). }
          rewrite list_lookup_insert in Hc' by (apply lookup_lt_Some in Hci2; lia). injection Hc' as <-.
          assert (js' = js) as -> by congruence.
          destruct (decide (i' = i)) as [->|Hne'].
          -- assert (j' = j) as -> by congruence.
             rewrite (cap_push es e2 j a j Hwf2 Hjl) in Hcp. rewrite decide_True in Hcp by done.
             eapply Hdead; [|eapply alive_mono; [exact Hle3|exact Hal]]. lia.
          -- apply (dp_k0 u js i' j' i Hx Hci2); auto. lia.
    - rewrite vset_ok by (apply lookup_lt_Some in Hci; lia). cbn [mbind res_bind].
      eexists. split; [reflexivity|]. exists (length js - (i + 1))%nat. split; [lia|].
      split; [lia|]. split; [|split; [apply list_lookup_insert; apply lookup_lt_Some in Hci; lia|reflexivity]].
      destruct HP. split; auto.
      + rewrite insert_length. auto.
      + intros x Hx. destruct (decide (x = u)) as [->|Hne]; [lia|]. rewrite list_lookup_insert_ne in Hx by done. auto.
      + intros x js' i' j' c' Hx Hc' Hi' Hj' Hcp Hl' Hal.
        destruct (decide (x = u)) as [->|Hne].
        2:{ rewrite list_lookup_insert_ne in Hc' by done. exact (dp_k0 x js' i' j' c' Hx Hc' Hi' Hj' Hcp Hl' Hal). }
        rewrite list_lookup_insert in Hc' by (apply lookup_lt_Some in Hci; lia). injection Hc' as <-.
        assert (js' = js) as -> by congruence.
        destruct (decide (i' = i)) as [->|Hne'].
        * assert (j' = j) as -> by congruence. fold c in Hcp. fold v in Hl'.
          apply Z.ltb_lt in Hcp. apply Z.eqb_eq in Hl'. rewrite Hcp, Hl' in Eb. discriminate.
        * apply (dp_k0 u js i' j' i Hx Hci); auto. lia.
  Qed.

  Lemma fdfs_ok fuel : forall u f e cur,
    (u < n)%nat -> 0 <= hl h u -> Z.of_nat n - hl h u < Z.of_nat fuel -> 0 < f <= it_max T -> ewf es e -> length cur = n -> kinv e cur ->
    exists a e' cur', fdfs fuel T g h t u f e cur = Ok (a, (e', cur')) /\ dpost u f e cur a e' cur' /\ (a < f -> ~ alive es h e' t u).
  Proof.
    induction fuel as [|fuel IH]; intros u f e cur Hu Hhu Hfuel Hf Hwf Hcl Hk.
    { pose proof (Hhb u). lia. }
    cbn [fdfs]. destruct (Nat.eqb_spec u t) as [->|Hut].
    { exists f, e, cur. split; [reflexivity|]. split; [|lia]. split; auto; try lia; try apply lev_le_refl; intros; try congruence; try lia. }
    destruct (vget_lt cur u ltac:(lia)) as (i & Ei & Hi). rewrite Ei. cbn [mbind res_bind].
    destruct (vget_lt g u ltac:(rewrite (gwf_len es g n Hg); lia)) as (js & Ejs & Hjs). rewrite Ejs. cbn [mbind res_bind].
    destruct (rloop_inv_idx (linv u f js e cur)
      (fun x => 0 <= x.1 /\ dpost u f e cur (f - x.1) x.2.1 x.2.2 /\ (0 < x.1 -> ~ alive es h x.2.1 t u))
      (dfs_step T (fdfs fuel T g h t) g h u)) with (fuel := S (length js)) (m := (length js - i)%nat) (s := (f, i, e, cur))
      as ([r [e' cur']] & E & H1 & H2 & H3).
    - intros m s Hs.
      destruct (dfs_step_ok (fdfs fuel T g h t) u f js e cur Hu Hut Hhu Hjs ltac:(lia) Hcl) with (m := m) (s := s) as (o & Eo & Ho); [|exact Hs|].
      + intros v f' e1 cur1 Hv Hlv Hf' Hw1 Hc1 Hk1. apply IH; auto; lia.
      + exists o. split; [exact Eo|]. destruct o as [s'|[r [e' cur']]]; exact Ho.
    - split; [lia|]. split; [|auto]. replace (f - f) with 0 by lia.
      split; auto; try lia; try apply lev_le_refl; intros; try congruence; try lia.
    - lia.
    - rewrite E. cbn [mbind res_bind fst snd]. cbn in H1, H2, H3. pose proof (dp_a _ _ _ _ _ _ _ H2).
      rewrite isub_ok by (unfold in_ty; lia). cbn [mbind res_bind].
      exists (f - r), e', cur'. split; [reflexivity|]. split; [exact H2|]. intros Hlt. apply H3. lia.
  Qed.
End phase.

(** ** bfs *)
Lemma hl_insert h v z x : (v < length h)%nat -> hl (<[v:=z]> h) x = if decide (x = v) then z else hl h x.
Proof.
  intros Hv. unfold hl. destruct (decide (x = v)) as [->|Hne].
  - rewrite list_lookup_insert by exact Hv. reflexivity.
  - rewrite list_lookup_insert_ne by done. reflexivity.
Qed.
Lemma hl_ge0_lt h x : 0 <= hl h x -> (x < length h)%nat.
Proof.
  unfold hl. destruct (h !! x) eqn:E; [intros _; apply lookup_lt_Some in E; exact E|lia].
Qed.
Definition unset (h : list Z) : nat := length (filter (fun z => z = -1) h).
Lemma unset_insert h v z : hl h v = -1 -> (v < length h)%nat -> 0 <= z -> (S (unset (<[v:=z]> h)) = unset h)%nat.
Proof.
  unfold unset. revert v. induction h as [|y h IH]; intros [|v] Hv Hl Hz; cbn [length] in Hl; try lia.
  - unfold hl in Hv; cbn in Hv. subst y. cbn [insert list_insert].
    rewrite filter_cons_False by lia. rewrite filter_cons_True by reflexivity. reflexivity.
  - change (<[S v:=z]> (y :: h)) with (y :: <[v:=z]> h).
    assert (hl h v = -1) as Hv' by exact Hv.
    specialize (IH v Hv' ltac:(lia) Hz).
    destruct (decide (y = -1)).
    + rewrite !filter_cons_True by assumption. cbn [length]. lia.
    + rewrite !filter_cons_False by assumption. exact IH.
Qed.
Lemma unset_le h : (unset h <= length h)%nat.
Proof. apply filter_length. Qed.

Section bfs.
  Context (es : list fedge) (g : list (list nat)) (n : nat) (Hg : gwf es g n).
  Context (e : list dedge) (Hwf : ewf es e) (Hn : Z.of_nat n <= 2 ^ 31 - 1).
  Context (s t : nat) (Hs : (s < n)%nat) (Hst : s <> t).

  Definition preds (h : list Z) : Prop :=
    forall x, 0 <= hl h x -> x = s \/ exists y, 0 <= hl h y /\ lstep es h e y x.
  Lemma preds_reach h : hl h s = 0 -> preds h -> forall x, 0 <= hl h x -> rtc (lstep es h e) s x.
  Proof.
    intros H0 Hp. assert (forall k x, 0 <= hl h x -> hl h x <= Z.of_nat k -> rtc (lstep es h e) s x) as H.
    { induction k as [|k IH]; intros x Hx Hk.
      - destruct (Hp x Hx) as [->|(y & Hy & j & ? & ? & ? & ? & E)]; [reflexivity|lia].
      - destruct (Hp x Hx) as [->|(y & Hy & Hl)]; [reflexivity|].
        eapply rtc_r; [apply (IH y Hy)|exact Hl]. destruct Hl as (j & ? & ? & ? & ? & E). lia. }
    intros x Hx. apply (H (Z.to_nat (hl h x)) x Hx). lia.
  Qed.
  Lemma preds_bound h : length h = n -> hl h s = 0 -> preds h -> forall x, hl h x < Z.of_nat n.
  Proof.
    intros Hlen H0 Hp x.
    assert (forall k x, 0 <= hl h x -> hl h x = Z.of_nat k ->
      exists l, NoDup l /\ length l = S k /\ forall y, y ∈ l -> 0 <= hl h y <= Z.of_nat k) as H.
    { induction k as [|k IH]; intros y Hy Hk.
      - exists [y]. split; [apply NoDup_singleton|]. split; [reflexivity|]. intros z ->%elem_of_list_singleton. lia.
      - destruct (Hp y Hy) as [->|(z & Hz & j & ? & ? & ? & ? & E)]; [lia|].
        destruct (IH z Hz ltac:(lia)) as (l & Hnd & Hl & Hall). exists (y :: l). split; [|split].
        + apply NoDup_cons. split; [|exact Hnd]. intros Hin%Hall. lia.
        + cbn. lia.
        + intros w [->|Hw]%elem_of_cons; [lia|]. specialize (Hall w Hw). lia. }
    destruct (decide (0 <= hl h x)) as [Hx|Hx]; [|lia].
    destruct (H (Z.to_nat (hl h x)) x Hx ltac:(lia)) as (l & Hnd & Hl & Hall).
    assert (length l <= n)%nat; [|lia].
    rewrite <- (seq_length n 0). apply submseteq_length. apply NoDup_submseteq; [exact Hnd|].
    intros y Hy. apply elem_of_seq. pose proof (hl_ge0_lt h y ltac:(apply Hall; exact Hy)). lia.
  Qed.

  Record bcore (exc : nat -> Prop) (d : Z) (h : list Z) (q : list nat) : Prop := {
    bc_d : 0 <= d;
    bc_len : length h = n;
    bc_s : hl h s = 0;
    bc_t : hl h t = -1;
    bc_lo : forall x, -1 <= hl h x;
    bc_up : forall x, hl h x <= d + 1;
    bc_pred : preds h;
    bc_q : exists A B, q = A ++ B /\ (forall x, x ∈ A -> hl h x = d) /\ (forall x, x ∈ B -> hl h x = d + 1);
    bc_proc : forall j, (j < 2 * length es)%nat -> 0 <= hl h (esrc es j) -> esrc es j ∉ q -> ~ exc (esrc es j) -> 0 < cap e j ->
      0 <= hl h (eto es j) <= hl h (esrc es j) + 1 }.

  (** What a finished search tells. *)
  Record found (h : list Z) : Prop := {
    fo_len : length h = n;
    fo_s : hl h s = 0;
    fo_t : 0 < hl h t;
    fo_b : forall x, hl h x < Z.of_nat n;
    fo_reach : rtc (lstep es h e) s t;
    fo_up : forall x, -1 <= hl h x <= hl h t;
    fo_lab : forall j, (j < 2 * length es)%nat -> 0 <= hl h (esrc es j) -> hl h (esrc es j) + 1 < hl h t -> 0 < cap e j ->
      0 <= hl h (eto es j) <= hl h (esrc es j) + 1 }.
  Definition closed (h : list Z) : Prop :=
    length h = n /\ hl h s = 0 /\ hl h t = -1 /\
    forall j, (j < 2 * length es)%nat -> 0 <= hl h (esrc es j) -> 0 < cap e j -> 0 <= hl h (eto es j).

  Lemma preds_insert h v d : preds h -> hl h v = -1 -> (v < length h)%nat -> 0 <= d ->
    (exists y, 0 <= hl h y /\ exists j, (j < 2 * length es)%nat /\ esrc es j = y /\ eto es j = v /\ 0 < cap e j /\ d = hl h y + 1) ->
    preds (<[v:=d]> h).
  Proof.
    intros Hp Hv Hl Hd (y & Hy & j & Hj & Hjs & Hjt & Hc & E) x. rewrite hl_insert by exact Hl.
    destruct (decide (x = v)) as [->|Hne]; intros Hx.
    - right. exists y. rewrite hl_insert by exact Hl. rewrite decide_False by (intros ->; lia). split; [exact Hy|].
      exists j. repeat split; auto. rewrite !hl_insert by exact Hl. rewrite decide_True by done. rewrite decide_False by (intros ->; lia). exact E.
    - destruct (Hp x Hx) as [->|(z & Hz & j' & ? & ? & ? & ? & E')]; [left; reflexivity|right].
      exists z. rewrite hl_insert by exact Hl. rewrite decide_False by (intros ->; lia). split; [exact Hz|].
      exists j'. repeat split; auto. rewrite !hl_insert by exact Hl. rewrite (decide_False (P := x = v)) by done.
      rewrite decide_False by (intros ->; lia). exact E'.
  Qed.

  Lemma bfs_scan_ok u d js : (u < n)%nat -> (forall j, j ∈ js -> (j < 2 * length es)%nat /\ esrc es j = u) ->
    forall rest done h q, js = done ++ rest ->
    bcore (fun x => x = u) d h q -> hl h u = d ->
    (forall j, j ∈ done -> 0 < cap e j -> 0 <= hl h (eto es j)) ->
    exists b h' q', bfs_scan e u t rest h q = Ok (b, (h', q')) /\
      if b : bool then found h'
      else bcore (fun x => x = u) d h' q' /\ hl h' u = d /\ (unset h' + length q' = unset h + length q)%nat /\
           forall j, j ∈ js -> 0 < cap e j -> 0 <= hl h' (eto es j).
  Proof.
    intros Hu Hjs. induction rest as [|j rest IH]; intros done h q Hd HB Hhu Hdone.
    { exists false, h, q. split; [reflexivity|]. rewrite app_nil_r in Hd. subst done. auto. }
    assert (j ∈ js) as Hjin by (rewrite Hd; apply elem_of_app; right; apply elem_of_list_here).
    destruct (Hjs j Hjin) as [Hjl Hsrc]. destruct (gwf_ends es g n j Hg Hjl) as [_ Hv].
    cbn [bfs_scan]. rewrite (vget_ok e j _ (ewf_at es e Hwf j Hjl)). cbn [mbind res_bind].
    assert (forall j', j' ∈ done ++ [j] -> j' ∈ done \/ j' = j) as Hsnoc.
    { intros j' [?|?%elem_of_list_singleton]%elem_of_app; auto. }
    assert (js = (done ++ [j]) ++ rest) as Hd' by (rewrite <- app_assoc; exact Hd).
    destruct (Z.ltb_spec 0 (cap e j)) as [Hc|Hc].
    2:{ apply (IH (done ++ [j]) h q Hd' HB Hhu). intros j' [Hj'| ->]%Hsnoc Hc'; [auto|lia]. }
    pose proof (bc_len _ _ _ _ HB) as Hlen.
    assert (vget h (eto es j) = Ok (hl h (eto es j))) as ->.
    { apply vget_ok. apply (hl_lookup n h Hlen). exact Hv. }
    cbn [mbind res_bind]. destruct (Z.eqb_spec (hl h (eto es j)) (-1)) as [Hneg|Hneg].
    2:{ apply (IH (done ++ [j]) h q Hd' HB Hhu). intros j' [Hj'| ->]%Hsnoc Hc'; [auto|].
        pose proof (bc_lo _ _ _ _ HB (eto es j)). lia. }
    rewrite (vget_ok h u (hl h u)) by (apply (hl_lookup n h Hlen); exact Hu). cbn [mbind res_bind].
    pose proof (preds_bound h Hlen (bc_s _ _ _ _ HB) (bc_pred _ _ _ _ HB) u) as Hub.
    pose proof (bc_d _ _ _ _ HB) as Hd0.
    rewrite iadd_ok by (unfold in_ty, it_min, it_max, i32; cbn; lia). cbn [mbind res_bind].
    rewrite vset_ok by lia. cbn [mbind res_bind].
    set (v := eto es j) in *. rewrite Hhu.
    assert (v < length h)%nat as Hvl by lia.
    assert (preds (<[v:=d + 1]> h)) as Hpr.
    { apply preds_insert; auto; [apply (bc_pred _ _ _ _ HB)|lia|]. exists u. split; [lia|]. exists j. rewrite Hhu. repeat split; auto. }
    assert (v <> s) as Hvs by (intros E; pose proof (bc_s _ _ _ _ HB); rewrite <- E in *; lia).
    assert (u <> v) as Huv by (intros E; rewrite <- E in *; lia).
    destruct HB. destruct bc_q0 as (A & B & -> & HA & HBl).
    destruct (Nat.eqb_spec v t) as [Evt|Evt].
    - exists true, (<[v:=d+1]> h), (A ++ B). split; [reflexivity|].
      assert (hl (<[v:=d + 1]> h) s = 0) as Hs0 by (rewrite hl_insert by exact Hvl; rewrite decide_False by done; exact bc_s0).
      assert (hl (<[v:=d + 1]> h) t = d + 1) as Ht0 by (rewrite hl_insert by exact Hvl; rewrite decide_True by done; reflexivity).
      split.
      + rewrite insert_length. exact bc_len0.
      + exact Hs0.
      + lia.
      + apply preds_bound; auto. rewrite insert_length. exact bc_len0.
      + apply preds_reach; auto. lia.
      + intros x. rewrite Ht0. rewrite hl_insert by exact Hvl. case_decide; [lia|]. split; auto.
      + intros j' Hj'. rewrite Ht0, !hl_insert by exact Hvl.
        destruct (decide (esrc es j' = v)); [lia|]. intros H1 H2 H3.
        destruct (bc_proc0 j' Hj' H1) as [Hlo Hhi]; auto.
        * intros [Hin|Hin]%elem_of_app; [rewrite (HA _ Hin) in H2|rewrite (HBl _ Hin) in H2]; lia.
        * intros E. rewrite E, Hhu in H2. lia.
        * case_decide as Ev; [rewrite Ev in Hlo|]; lia.
    - destruct (IH (done ++ [j]) (<[v:=d + 1]> h) ((A ++ B) ++ [v]) Hd') as (b & h' & q' & E & Hb).
      + split.
        * exact Hd0.
        * rewrite insert_length. exact bc_len0.
        * rewrite hl_insert by exact Hvl. rewrite decide_False by done. exact bc_s0.
        * rewrite hl_insert by exact Hvl. rewrite decide_False by done. exact bc_t0.
        * intros x. rewrite hl_insert by exact Hvl. case_decide; [lia|auto].
        * intros x. rewrite hl_insert by exact Hvl. case_decide; [lia|auto].
        * exact Hpr.
        * exists A, (B ++ [v]). split; [rewrite app_assoc; reflexivity|]. split.
          -- intros x Hx. rewrite hl_insert by exact Hvl. specialize (HA x Hx). rewrite decide_False; [exact HA|]. intros ->. lia.
          -- intros x [Hx|Hx%elem_of_list_singleton]%elem_of_app; rewrite hl_insert by exact Hvl.
             ++ specialize (HBl x Hx). rewrite decide_False; [exact HBl|]. intros ->. lia.
             ++ rewrite decide_True by exact Hx. reflexivity.
        * intros j' Hj'. rewrite !hl_insert by exact Hvl. intros H1 H2 H3 H4.
          destruct (decide (esrc es j' = v)) as [Ev|Ev].
          { exfalso. apply H2. apply elem_of_app. right. apply elem_of_list_singleton. exact Ev. }
          destruct (bc_proc0 j' Hj' H1) as [Hlo Hhi]; auto.
          { intros Hin. apply H2. apply elem_of_app. left. exact Hin. }
          rewrite decide_False; [auto|]. intros E'. rewrite E' in Hlo. lia.
      + rewrite hl_insert by exact Hvl. rewrite decide_False by done. exact Hhu.
      + intros j' [Hj'| ->]%Hsnoc Hc'.
        * specialize (Hdone j' Hj' Hc'). rewrite hl_insert by exact Hvl. case_decide; lia.
        * rewrite hl_insert by exact Hvl. fold v. rewrite decide_True by done. lia.
      + exists b, h', q'. split; [exact E|]. destruct b; [exact Hb|].
        destruct Hb as (H1 & H2 & H3 & H4). split; [exact H1|]. split; [exact H2|]. split; [|exact H4].
        pose proof (unset_insert h v (d + 1) Hneg Hvl ltac:(lia)). rewrite !app_length in H3. cbn [length] in H3. rewrite app_length. lia.
  Qed.

  Lemma bfs_ok h0 : length h0 = n ->
    exists b h, bfs e g h0 s t = Ok (b, h) /\ if b : bool then found h else closed h.
  Proof.
    intros Hl0. unfold bfs. rewrite vset_ok by (rewrite replicate_length; lia). cbn [mbind res_bind].
    assert (forall x, hl (<[s:=0]> (replicate (length h0) (-1))) x = if decide (x = s) then 0 else -1) as Hini.
    { intros x. rewrite hl_insert by (rewrite replicate_length; lia). case_decide; [reflexivity|].
      unfold hl. destruct (replicate (length h0) (-1) !! x) eqn:E; [|reflexivity]. apply lookup_replicate in E as [-> _]. reflexivity. }
    destruct (rloop_inv_idx
      (fun m hq => (exists d, bcore (fun _ => False) d hq.1 hq.2) /\ m = (unset hq.1 + length hq.2)%nat)
      (fun bh => if bh.1 : bool then found bh.2 else closed bh.2) (bfs_step e g t))
      with (fuel := S (S (length g))) (m := (unset (<[s:=0%Z]> (replicate (length h0) (-1)%Z)) + 1)%nat)
           (s := (<[s:=0%Z]> (replicate (length h0) (-1)), [s])) as ([b h] & E & Hb).
    - intros m [h q] [(d & HB) Hm]. cbn [fst snd] in *. unfold bfs_step.
      destruct q as [|u q].
      + eexists. split; [reflexivity|]. cbn. destruct HB. repeat split; auto.
        intros j Hj H1 H2. apply (bc_proc0 j Hj H1); auto. apply not_elem_of_nil.
      + (* renormalise so that u has level d *)
        assert (exists d', hl h u = d' /\ bcore (fun x => x = u) d' h q) as (d' & Hu & HB').
        { destruct HB. destruct bc_q0 as (A & B & EAB & HA & HBl).
          assert (forall j, (j < 2 * length es)%nat -> 0 <= hl h (esrc es j) -> esrc es j ∉ q -> esrc es j <> u -> 0 < cap e j ->
            0 <= hl h (eto es j) <= hl h (esrc es j) + 1) as Hpr.
          { intros j Hj H1 H2 H3 H4. apply (bc_proc0 j Hj H1); auto. intros [?|?]%elem_of_cons; auto. }
          destruct A as [|a A].
          - cbn in EAB. subst B. exists (d + 1). split; [apply HBl; apply elem_of_list_here|]. split; auto; try lia.
            + intros x. specialize (bc_up0 x). lia.
            + exists q, []. split; [rewrite app_nil_r; reflexivity|]. split; [|intros x Hx%elem_of_nil; done].
              intros x Hx. apply HBl. apply elem_of_list_further. exact Hx.
          - cbn in EAB. injection EAB as <- ->. exists d. split; [apply HA; apply elem_of_list_here|]. split; auto.
            exists A, B. split; [reflexivity|]. split; [|exact HBl]. intros x Hx. apply HA. apply elem_of_list_further. exact Hx. }
        pose proof (bc_len _ _ _ _ HB') as Hlen. pose proof (bc_d _ _ _ _ HB') as Hd0.
        assert (u < n)%nat as Hun by (pose proof (hl_ge0_lt h u ltac:(lia)); lia).
        destruct (vget_lt g u ltac:(rewrite (gwf_len es g n Hg); lia)) as (js & Ejs & Hjs). rewrite Ejs. cbn [mbind res_bind].
        destruct (bfs_scan_ok u d' js Hun) with (rest := js) (done := @nil nat) (h := h) (q := q)
          as (b & h' & q' & E & Hb); auto.
        { intros j Hj. apply (gwf_at es g n Hg u js j Hjs). exact Hj. }
        { intros j Hj%elem_of_nil. done. }
        rewrite E. cbn [mbind res_bind fst snd]. destruct b.
        * eexists. split; [reflexivity|]. exact Hb.
        * destruct Hb as (H1 & H2 & H3 & H4). eexists. split; [reflexivity|]. cbn [fst snd].
          exists (unset h' + length q')%nat. split; [cbn [length] in Hm; lia|]. split; [|reflexivity].
          exists d'. destruct H1. split; auto.
          intros j Hj K1 K2 _ K4. destruct (decide (esrc es j = u)) as [Eu|Eu]; [|apply bc_proc0; auto].
          split; [|rewrite Eu, H2; apply bc_up0]. apply H4; [|exact K4]. apply (gwf_at es g n Hg u js j Hjs). auto.
    - cbn [fst snd length]. split; [|lia]. exists 0. split; auto; try lia.
      + rewrite insert_length, replicate_length. exact Hl0.
      + rewrite Hini. rewrite decide_True by done. reflexivity.
      + rewrite Hini. rewrite decide_False by done. reflexivity.
      + intros x. rewrite Hini. case_decide; lia.
      + intros x. rewrite Hini. case_decide; lia.
      + intros x. rewrite Hini. case_decide; [auto|lia].
      + exists [s], []. split; [reflexivity|]. split; [|intros x Hx%elem_of_nil; done].
        intros x ->%elem_of_list_singleton. rewrite Hini. rewrite decide_True by done. reflexivity.
      + intros j Hj. rewrite Hini. case_decide as Es; [|lia]. intros _ Hq. exfalso. apply Hq. apply elem_of_list_singleton. exact Es.
    - pose proof (unset_le (<[s:=0%Z]> (replicate (length h0) (-1)))). rewrite insert_length, replicate_length in H.
      pose proof (gwf_len es g n Hg). lia.
    - exists b, h. split; [exact E|exact Hb].
  Qed.
End bfs.

(** ** After a phase the target is farther away *)
Definition dist_ge (es : list fedge) (e : list dedge) (s t : nat) (d : Z) : Prop :=
  forall h, hl h s = 0 -> rtc (lstep es h e) s t -> d <= hl h t.
Lemma phase_dist es n e e' s t h : s <> t -> found es n e s t h -> lev_le es h e e' -> ~ alive es h e' t s ->
  dist_ge es e' s t (hl h t + 1).
Proof.
  intros Hst Hf Hle Hdead h' Hs' Hp.
  set (L := hl h t). set (ht := fun x => if hl h x =? -1 then L else hl h x).
  assert (forall j, (j < 2 * length es)%nat -> 0 < cap e' j -> ht (eto es j) <= ht (esrc es j) + 1) as Hedge.
  { intros j Hj Hc. unfold ht, L. destruct Hf.
    pose proof (fo_up0 (eto es j)). pose proof (fo_up0 (esrc es j)).
    destruct (Hle j Hj) as [Hle'|[H1 H2]].
    - pose proof (fo_lab0 j Hj) as HH.
      destruct (Z.eqb_spec (hl h (eto es j)) (-1)), (Z.eqb_spec (hl h (esrc es j)) (-1)); try lia.
    - destruct (Z.eqb_spec (hl h (eto es j)) (-1)), (Z.eqb_spec (hl h (esrc es j)) (-1)); lia. }
  assert (ht s = 0 /\ ht t = L /\ 0 < L) as (Hhs & Hht & HL0).
  { destruct Hf. unfold ht, L. destruct (Z.eqb_spec (hl h s) (-1)), (Z.eqb_spec (hl h t) (-1)); lia. }
  assert (forall y, rtc (lstep es h' e') s y ->
    ht y <= hl h' y /\ (ht y = hl h' y -> 0 <= hl h y -> rtc (lstep es h e') s y)) as H.
  { apply rtc_ind_r; [split; [lia|intros; reflexivity]|]. intros y z Hy Hyz IH.
    destruct IH as [IH1 IH2]. destruct Hyz as (j & Hj & Hjs & Hjt & Hc & Hl).
    pose proof (Hedge j Hj Hc) as He. rewrite Hjs, Hjt in He. split; [lia|]. intros E Hz.
    pose proof (fo_up _ _ _ _ _ _ Hf z) as Hzu. pose proof (fo_up _ _ _ _ _ _ Hf y) as Hyu.
    assert (ht z = hl h z) as Ez by (unfold ht; destruct (Z.eqb_spec (hl h z) (-1)); lia).
    assert (ht y = hl h y) as Ey.
    { unfold ht. destruct (Z.eqb_spec (hl h y) (-1)) as [Ey|]; [|reflexivity].
      exfalso. assert (ht y = L) by (unfold ht; rewrite Ey; reflexivity). unfold L in *. lia. }
    eapply rtc_r; [apply IH2; [lia|]|].
    - unfold ht in Ey. destruct (Z.eqb_spec (hl h y) (-1)); lia.
    - exists j. repeat split; auto. lia. }
  destruct (H t Hp) as [H1 H2]. destruct (decide (hl h' t = L)) as [E|E]; [|lia].
  exfalso. apply Hdead. apply H2; [lia|]. fold L. lia.
Qed.

(** ** Flows and cuts *)
Definition fval (fs : list Z) (k : nat) : Z := match fs !! k with Some f => f | None => 0 end.
Lemma net_zsum es : forall fs x, length fs = length es ->
  outflow es fs x - inflow es fs x =
  zsum (fun k => fval fs k * (ind (esrc es (2 * k)) x - ind (eto es (2 * k)) x)) (length es).
Proof.
  induction es as [|[[u v] c] es IH]; intros [|f fs] x Hl; try discriminate; [reflexivity|].
  cbn [length]. rewrite zsum_S_l. cbn [outflow inflow]. cbn in Hl.
  rewrite (zsum_ext _ (fun k => fval fs k * (ind (esrc es (2 * k)) x - ind (eto es (2 * k)) x))).
  - rewrite <- IH by lia. unfold esrc, eto. rewrite !eends_even. cbn. unfold ind, fval; cbn.
    destruct (u =? x)%nat, (v =? x)%nat; lia.
  - intros k Hk. unfold esrc, eto. rewrite !eends_even. reflexivity.
Qed.
Definition flow_of (es : list fedge) (e : list dedge) : list Z := map (fun k => cap e (2 * k + 1)) (seq 0 (length es)).
Lemma flow_of_at es e k : (k < length es)%nat -> flow_of es e !! k = Some (cap e (2 * k + 1)).
Proof.
  intros Hk. unfold flow_of. change (map ?f ?l) with (f <$> l). rewrite list_lookup_fmap, lookup_seq_lt by exact Hk. reflexivity.
Qed.
Lemma flow_of_len es e : length (flow_of es e) = length es.
Proof. unfold flow_of. rewrite map_length, seq_length. reflexivity. Qed.
Lemma flow_of_net es e x : outflow es (flow_of es e) x - inflow es (flow_of es e) x = netf es e x.
Proof.
  rewrite net_zsum by apply flow_of_len. apply zsum_ext. intros k Hk. unfold fval. rewrite flow_of_at by exact Hk. reflexivity.
Qed.
Lemma ecap_at es k u v c : es !! k = Some (u, v, c) -> ecap es (2 * k + 1) = c.
Proof. intros H. unfold ecap. rewrite half_odd, H. reflexivity. Qed.
Lemma flow_of_feasible es e s t : ewf es e -> (forall x, x <> s -> x <> t -> netf es e x = 0) -> feasible es s t (flow_of es e).
Proof.
  intros H Hn. split.
  - apply Forall2_same_length_lookup_2; [symmetry; apply flow_of_len|].
    intros k [[u v] c] f Hk Hf. pose proof (lookup_lt_Some _ _ _ Hk) as Hkl. rewrite flow_of_at in Hf by exact Hkl. injection Hf as <-.
    pose proof (ewf_pair es e H (2 * k + 1) ltac:(lia)) as Hp. rewrite (ecap_at es k u v c Hk), partner_odd in Hp.
    pose proof (ewf_nonneg es e H (2 * k) ltac:(lia)). pose proof (ewf_nonneg es e H (2 * k + 1) ltac:(lia)). cbn. lia.
  - intros x Hs Ht. pose proof (flow_of_net es e x). rewrite (Hn x Hs Ht) in H0. lia.
Qed.

(** Flow across a cut. *)
Definition bz (b : bool) : Z := if b then 1 else 0.
Fixpoint cutflow (es : list fedge) (fs : list Z) (X : nat -> bool) : Z :=
  match es, fs with
  | (u, v, _) :: es, f :: fs => f * (bz (X u) - bz (X v)) + cutflow es fs X
  | _, _ => 0
  end.
Lemma cutflow_sum n (X : nat -> bool) es : forall fs, (forall u v c, (u, v, c) ∈ es -> (u < n)%nat /\ (v < n)%nat) ->
  zsum (fun x => if X x then outflow es fs x - inflow es fs x else 0) n = cutflow es fs X.
Proof.
  induction es as [|[[u v] c] es IH]; intros fs Hes.
  { cbn. rewrite (zsum_ext _ (fun _ => 0)); [apply zsum_0|]. intros k _. destruct (X k); reflexivity. }
  destruct fs as [|f fs].
  { cbn. rewrite (zsum_ext _ (fun _ => 0)); [apply zsum_0|]. intros k _. destruct (X k); reflexivity. }
  cbn [outflow inflow cutflow]. destruct (Hes u v c (elem_of_list_here _ _)) as [Hu Hv].
  rewrite (zsum_ext _ (fun x => ((if (u =? x)%nat then f * bz (X x) else 0) + (if (v =? x)%nat then - f * bz (X x) else 0)) +
     (if X x then outflow es fs x - inflow es fs x else 0))).
  - rewrite zsum_add, zsum_add, IH by (intros; apply Hes with c0; apply elem_of_list_further; assumption).
    rewrite (zsum_single _ n u Hu), (zsum_single _ n v Hv).
    + rewrite !Nat.eqb_refl. lia.
    + intros k _ Hk. destruct (Nat.eqb_spec v k); [congruence|reflexivity].
    + intros k _ Hk. destruct (Nat.eqb_spec u k); [congruence|reflexivity].
  - intros k _. unfold bz. destruct (X k), (u =? k)%nat, (v =? k)%nat; lia.
Qed.
Lemma value_cutflow n es s t fs (X : nat -> bool) : (forall u v c, (u, v, c) ∈ es -> (u < n)%nat /\ (v < n)%nat) -> (s < n)%nat ->
  feasible es s t fs -> X s = true -> X t = false -> flow_value es s fs = cutflow es fs X.
Proof.
  intros Hes Hs [_ Hc] Xs Xt. rewrite <- (cutflow_sum n X es fs Hes).
  rewrite (zsum_single _ n s Hs); [rewrite Xs; reflexivity|].
  intros k _ Hk. destruct (X k) eqn:Xk; [|reflexivity]. rewrite (Hc k Hk); [lia|]. intros ->. congruence.
Qed.
Lemma cutflow_le es fs (X : nat -> bool) : Forall2 (fun e f => 0 <= f <= e.2) es fs -> cutflow es fs X <= cut_cap es X.
Proof.
  induction 1 as [|[[u v] c] f es fs Hf _ IH]; [reflexivity|]. cbn [cutflow cut_cap]. cbn in Hf.
  unfold bz. destruct (X u), (X v); cbn [andb negb]; lia.
Qed.
Lemma cutflow_eq es fs (X : nat -> bool) :
  Forall2 (fun e f => (X e.1.1 = true -> X e.1.2 = false -> f = e.2) /\ (X e.1.1 = false -> X e.1.2 = true -> f = 0)) es fs ->
  cutflow es fs X = cut_cap es X.
Proof.
  induction 1 as [|[[u v] c] f es fs [H1 H2] _ IH]; [reflexivity|]. cbn [cutflow cut_cap]. cbn in H1, H2.
  unfold bz. destruct (X u), (X v); cbn [andb negb]; try (rewrite H1 by reflexivity); try (rewrite H2 by reflexivity); lia.
Qed.

(** A closed search certifies maximality. *)
Lemma closed_max es g n e s t h : gwf es g n -> ewf es e -> (s < n)%nat ->
  (forall x, x <> s -> x <> t -> netf es e x = 0) -> closed es n e s t h ->
  is_max_flow es s t (netf es e s) /\ is_min_cut es s t (netf es e s).
Proof.
  intros Hg Hwf Hs Hnet (Hl & Hhs & Hht & Hcl).
  set (X := fun x => 0 <=? hl h x).
  pose proof (flow_of_feasible es e s t Hwf Hnet) as Hfe.
  assert (X s = true /\ X t = false) as [Xs Xt] by (unfold X; rewrite Hhs, Hht; auto).
  assert (flow_value es s (flow_of es e) = netf es e s) as Hval by (unfold flow_value; apply flow_of_net).
  assert (netf es e s = cut_cap es X) as Hcut.
  { rewrite <- Hval. rewrite (value_cutflow n es s t _ X (gwf_es es g n Hg) Hs Hfe Xs Xt). apply cutflow_eq.
    apply Forall2_same_length_lookup_2; [symmetry; apply flow_of_len|].
    intros k [[u v] c] f Hk Hf. pose proof (lookup_lt_Some _ _ _ Hk) as Hkl. rewrite flow_of_at in Hf by exact Hkl. injection Hf as <-.
    pose proof (ewf_pair es e Hwf (2 * k + 1) ltac:(lia)) as Hp. rewrite (ecap_at es k u v c Hk), partner_odd in Hp.
    pose proof (ewf_nonneg es e Hwf (2 * k) ltac:(lia)). pose proof (ewf_nonneg es e Hwf (2 * k + 1) ltac:(lia)).
    pose proof (Hcl (2 * k)%nat ltac:(lia)) as H1. pose proof (Hcl (2 * k + 1)%nat ltac:(lia)) as H2.
    unfold esrc, eto in H1, H2. rewrite !eends_even in H1. rewrite !eends_odd in H2. rewrite Hk in H1, H2. cbn in H1, H2 |- *.
    unfold X. split; intros Hu Hv.
    - apply Z.leb_le in Hu. apply Z.leb_gt in Hv. specialize (H1 Hu). lia.
    - apply Z.leb_le in Hv. apply Z.leb_gt in Hu. specialize (H2 Hv). lia. }
  split; split.
  - exists (flow_of es e). auto.
  - intros fs Hfs. rewrite Hcut. rewrite (value_cutflow n es s t fs X (gwf_es es g n Hg) Hs Hfs Xs Xt). apply cutflow_le. apply Hfs.
  - exists X. auto.
  - intros Y Ys Yt. rewrite <- Hval. rewrite (value_cutflow n es s t _ Y (gwf_es es g n Hg) Hs Hfe Ys Yt). apply cutflow_le. apply Hfe.
Qed.

(** ** get_max_flow *)
Record dinv (n : nat) (es : list fedge) (d : dinic) : Prop := {
  di_n : dn_n d = n;
  di_g : gwf es (dn_g d) n;
  di_e : ewf es (dn_e d);
  di_cur : length (dn_cur d) = n;
  di_h : length (dn_h d) = n }.

(** Loop rule with a panic exit. *)
Lemma rloop_inv_idx_p {S R} (I : nat -> S -> Prop) (Q : R -> Prop) (P : Prop) (step : S -> res (S + R)) :
  (forall m s, I m s -> (step s = Panic /\ P) \/ exists o, step s = Ok o /\
     match o with inl s' => exists m', (m' < m)%nat /\ I m' s' | inr r => Q r end) ->
  forall fuel m s, I m s -> (m < fuel)%nat -> (rloop fuel step s = Panic /\ P) \/ exists r, rloop fuel step s = Ok r /\ Q r.
Proof.
  intros Hstep fuel. induction fuel as [|fuel IH]; intros m s HI Hm; [lia|].
  cbn [rloop]. destruct (Hstep m s HI) as [[E HP]|(o & Ho & Hmatch)]; [rewrite E; left; auto|].
  rewrite Ho. cbn. destruct o as [s'|r].
  - destruct Hmatch as (m' & Hlt & HI'). apply (IH m'); [exact HI'|lia].
  - right. eauto.
Qed.

(** From any residual state: the loop ends with a closed search, having moved the returned amount from s to t. *)
Definition shifted (es : list fedge) (s t : nat) (e e' : list dedge) (v : Z) : Prop :=
  forall x, netf es e' x = netf es e x + v * (ind s x - ind t x).
Lemma max_flow_gen T n es d s t :
  0 < it_max T -> it_min T <= 0 -> Z.of_nat n <= 2 ^ 31 - 1 -> (forall j, ecap es j <= it_max T) ->
  dinv n es d -> (s < n)%nat -> (t < n)%nat -> s <> t ->
  (dn_max_flow T d s t = Panic /\ exists e' v, ewf es e' /\ it_max T < v /\ shifted es s t (dn_e d) e' v) \/
  exists d' v, dn_max_flow T d s t = Ok (d', v) /\ 0 <= v <= it_max T /\ dinv n es d' /\ shifted es s t (dn_e d) (dn_e d') v /\
    closed es n (dn_e d') s t (dn_h d').
Proof.
  intros HT HTm Hn Hcap Hd Hs Ht Hst.
  unfold dn_max_flow. rewrite (di_n _ _ _ Hd).
  destruct (Nat.ltb_spec s n); [|lia]. destruct (Nat.ltb_spec t n); [|lia]. cbn [rassert mbind res_bind].
  destruct (rloop_inv_idx_p
    (fun m (x : Z * dinic) => dinv n es x.2 /\ 0 <= x.1 <= it_max T /\ shifted es s t (dn_e d) (dn_e x.2) x.1 /\
      ((exists dd, dist_ge es (dn_e x.2) s t dd /\ Z.of_nat n - dd < Z.of_nat m) \/ x.1 = it_max T))
    (fun x : Z * dinic => dinv n es x.2 /\ 0 <= x.1 <= it_max T /\ shifted es s t (dn_e d) (dn_e x.2) x.1 /\
      closed es n (dn_e x.2) s t (dn_h x.2))
    (exists e' v, ewf es e' /\ it_max T < v /\ shifted es s t (dn_e d) e' v) (flow_step T s t))
    with (fuel := S (S n)) (m := S n) (s := (0, d)) as [[EP HP]|([v d'] & E & H1 & H2 & H3 & H4)].
  - intros m [ans [dn e g cur h]] (HD & Ha & Hv & Hm). cbn [fst snd dn_e dn_h dn_g dn_cur dn_n] in *. destruct HD. cbn [dn_e dn_h dn_g dn_cur dn_n] in *.
    unfold flow_step. cbn [dn_e dn_h dn_g dn_cur dn_n].
    destruct (bfs_ok es g n di_g0 e di_e0 Hn s t Hs Hst h di_h0) as (b & h' & Eb & Hb). rewrite Eb. cbn [mbind res_bind].
    destruct b.
    2:{ right. eexists. split; [reflexivity|]. cbn. split; [split; auto; apply Hb|]. auto. }
    destruct (fdfs_ok T HTm es g n di_g0 Hcap h' (fo_len _ _ _ _ _ _ Hb) (fo_b _ _ _ _ _ _ Hb) Hn t (S (S (length g))) s (it_max T) e
      (replicate (length cur) 0%nat)) as (a & e' & cur' & Ed & HP & Hdead); auto; try lia.
    { pose proof (fo_s _ _ _ _ _ _ Hb). lia. }
    { pose proof (fo_s _ _ _ _ _ _ Hb). rewrite (gwf_len es g n di_g0). lia. }
    { rewrite replicate_length. exact di_cur0. }
    { intros x js i j c _ Hc Hi. apply lookup_replicate in Hc as [-> _]. lia. }
    rewrite Ed. cbn [mbind res_bind].
    pose proof (dp_a _ _ _ _ _ _ _ _ _ _ _ HP) as Hab. pose proof (dp_wf _ _ _ _ _ _ _ _ _ _ _ HP) as Hwf'.
    assert (0 < a) as Hpos.
    { destruct (decide (a = 0)) as [->|]; [exfalso|lia]. apply (Hdead ltac:(lia)).
      rewrite (dp_same _ _ _ _ _ _ _ _ _ _ _ HP eq_refl). apply (fo_reach _ _ _ _ _ _ Hb). }
    assert (shifted es s t (dn_e d) e' (ans + a)) as Hv'.
    { intros y. rewrite (dp_net _ _ _ _ _ _ _ _ _ _ _ HP y), (Hv y). lia. }
    destruct (decide (ans + a <= it_max T)) as [Hlim|Hlim].
    2:{ left. split.
        - unfold iadd. rewrite chk_panic by (unfold in_ty; lia). reflexivity.
        - exists e', (ans + a). split; [exact Hwf'|]. split; [lia|exact Hv']. }
    right.
    rewrite iadd_ok by (unfold in_ty; lia). cbn [mbind res_bind].
    eexists. split; [reflexivity|]. cbn [fst snd dn_e dn_h dn_g dn_cur dn_n].
    destruct Hm as [(dd & Hdd & Hm)|Hlim']; [|lia].
    pose proof (Hdd h' (fo_s _ _ _ _ _ _ Hb) (fo_reach _ _ _ _ _ _ Hb)) as Hdl. pose proof (fo_b _ _ _ _ _ _ Hb t) as Htb.
    exists (Z.to_nat (Z.of_nat n - hl h' t)). split; [lia|]. split.
    { split; cbn; auto; try lia. rewrite (dp_cl _ _ _ _ _ _ _ _ _ _ _ HP), replicate_length. exact di_cur0. apply (fo_len _ _ _ _ _ _ Hb). }
    split; [lia|]. split; [exact Hv'|].
    destruct (decide (a < it_max T)) as [Hlt|Hge]; [left|right; lia].
    exists (hl h' t + 1). split; [|lia].
    apply (phase_dist es n e e' s t h' Hst Hb (dp_le _ _ _ _ _ _ _ _ _ _ _ HP)). apply Hdead. exact Hlt.
  - cbn [fst snd]. split; [exact Hd|]. split; [lia|]. split; [intros x; lia|]. left. exists 0. split; [|lia].
    intros h Hh Hr. clear -Hh Hr. assert (forall y, rtc (lstep es h (dn_e d)) s y -> 0 <= hl h y) as H; [|auto].
    apply rtc_ind_r; [lia|]. intros y z Hy Hyz IH. destruct Hyz as (j & ? & ? & ? & ? & ?). lia.
  - lia.
  - left. rewrite EP. auto.
  - right. rewrite E. cbn [mbind res_bind fst snd] in *. exists d', v. auto.
Qed.

Lemma max_flow_total T n es d s t v0 :
  0 < it_max T -> it_min T <= 0 -> Z.of_nat n <= 2 ^ 31 - 1 -> (forall j, ecap es j <= it_max T) ->
  dinv n es d -> (s < n)%nat -> (t < n)%nat -> s <> t ->
  (forall x, x <> s -> x <> t -> netf es (dn_e d) x = 0) -> netf es (dn_e d) s = v0 ->
  (dn_max_flow T d s t = Panic /\ exists fs, feasible es s t fs /\ v0 + it_max T < flow_value es s fs) \/
  exists d' v, dn_max_flow T d s t = Ok (d', v) /\ 0 <= v /\ dinv n es d' /\
    (forall x, x <> s -> x <> t -> netf es (dn_e d') x = 0) /\ netf es (dn_e d') s = v0 + v /\
    is_max_flow es s t (v0 + v) /\ is_min_cut es s t (v0 + v).
Proof.
  intros HT HTm Hn Hcap Hd Hs Ht Hst Hnet Hv0.
  assert (forall e' v, shifted es s t (dn_e d) e' v -> (forall x, x <> s -> x <> t -> netf es e' x = 0) /\ netf es e' s = v0 + v) as Hsh.
  { intros e' v H. split; [intros x Xs Xt|]; rewrite (H _); unfold ind.
    - rewrite (Hnet x Xs Xt). destruct (Nat.eqb_spec s x); [congruence|]. destruct (Nat.eqb_spec t x); [congruence|]. lia.
    - rewrite Nat.eqb_refl. destruct (Nat.eqb_spec t s); [congruence|]. lia. }
  destruct (max_flow_gen T n es d s t) as [[E (e' & v & Hw & Hv & Hx)]|(d' & v & E & Hv & Hd' & Hx & Hc)]; auto.
  - left. split; [exact E|]. destruct (Hsh _ _ Hx) as [A B]. exists (flow_of es e'). split; [apply flow_of_feasible; assumption|].
    unfold flow_value. rewrite flow_of_net, B. lia.
  - right. destruct (Hsh _ _ Hx) as [A B]. exists d', v. split; [exact E|]. split; [lia|]. split; [exact Hd'|]. split; [exact A|]. split; [exact B|].
    rewrite <- B. eapply closed_max; eauto; apply Hd'.
Qed.

Lemma max_flow_ok T n es d s t v0 :
  0 < it_max T -> it_min T <= 0 -> Z.of_nat n <= 2 ^ 31 - 1 -> (forall j, ecap es j <= it_max T) ->
  dinv n es d -> (s < n)%nat -> (t < n)%nat -> s <> t ->
  (forall x, x <> s -> x <> t -> netf es (dn_e d) x = 0) -> netf es (dn_e d) s = v0 ->
  (forall fs, feasible es s t fs -> flow_value es s fs <= v0 + it_max T) ->
  exists d' v, dn_max_flow T d s t = Ok (d', v) /\ 0 <= v /\ dinv n es d' /\
    (forall x, x <> s -> x <> t -> netf es (dn_e d') x = 0) /\ netf es (dn_e d') s = v0 + v /\
    is_max_flow es s t (v0 + v) /\ is_min_cut es s t (v0 + v).
Proof.
  intros HT HTm Hn Hcap Hd Hs Ht Hst Hnet Hv0 Hmax.
  destruct (max_flow_total T n es d s t v0) as [[_ (fs & F1 & F2)]|H]; auto. specialize (Hmax fs F1). lia.
Qed.

(** ** add_edge *)
Lemma eends_app es x j : (j < 2 * length es)%nat -> eends (es ++ [x]) j = eends es j.
Proof.
  intros Hj. unfold eends. rewrite lookup_app_l; [reflexivity|]. apply Nat.div_lt_upper_bound; lia.
Qed.
Lemma ecap_app es x j : (j < 2 * length es)%nat -> ecap (es ++ [x]) j = ecap es j.
Proof.
  intros Hj. unfold ecap. rewrite lookup_app_l; [reflexivity|]. apply Nat.div_lt_upper_bound; lia.
Qed.
Lemma cap_app_l e e2 j : (j < length e)%nat -> cap (e ++ e2) j = cap e j.
Proof. intros Hj. unfold cap. rewrite lookup_app_l by exact Hj. reflexivity. Qed.

Lemma add_edge_ok n es d u v c : dinv n es d -> (u < n)%nat -> (v < n)%nat -> 0 <= c ->
  exists d', dn_add_edge d u v c = Ok d' /\ dinv n (es ++ [(u, v, c)]) d' /\
    forall x, netf (es ++ [(u, v, c)]) (dn_e d') x = netf es (dn_e d) x.
Proof.
  intros [Hdn Hg He Hcur Hh] Hu Hv Hc. destruct d as [dn e g cur h]. cbn [dn_n dn_e dn_g dn_cur dn_h] in *.
  pose proof (gwf_len es g n Hg) as Hgl. pose proof (ewf_len es e He) as Hel. set (m := length es) in *.
  unfold dn_add_edge. cbn [dn_n dn_e dn_g dn_cur dn_h].
  destruct (vget_lt g u ltac:(lia)) as (gu & E1 & Hgu). rewrite E1. cbn [mbind res_bind].
  rewrite vset_ok by lia. cbn [mbind res_bind].
  destruct (vget_lt (<[u:=gu ++ [length e]]> g) v ltac:(rewrite insert_length; lia)) as (gv & E2 & Hgv). rewrite E2. cbn [mbind res_bind].
  rewrite vset_ok by (rewrite insert_length; lia). cbn [mbind res_bind].
  set (es' := es ++ [(u, v, c)]). set (e' := (e ++ [(v, c)]) ++ [(u, 0)]).
  assert (length es' = S m) as Hl' by (unfold es'; rewrite app_length; cbn; lia).
  assert (eends es' (2 * m) = (u, v)) as Em.
  { rewrite eends_even. unfold es'. rewrite lookup_app_r by reflexivity. rewrite Nat.sub_diag. reflexivity. }
  assert (eends es' (2 * m + 1) = (v, u)) as Em1.
  { rewrite eends_odd. unfold es'. rewrite lookup_app_r by reflexivity. rewrite Nat.sub_diag. reflexivity. }
  assert (e' = e ++ [(v, c); (u, 0)]) as Ee' by (unfold e'; rewrite <- app_assoc; reflexivity).
  assert (cap e' (2 * m) = c) as Cm.
  { unfold cap. rewrite Ee', lookup_app_r by lia. replace (2 * m - length e)%nat with 0%nat by lia. reflexivity. }
  assert (cap e' (2 * m + 1) = 0) as Cm1.
  { unfold cap. rewrite Ee', lookup_app_r by lia. replace (2 * m + 1 - length e)%nat with 1%nat by lia. reflexivity. }
  assert (forall j, (j < 2 * m)%nat -> cap e' j = cap e j) as Cl.
  { intros j Hj. rewrite Ee'. apply cap_app_l. lia. }
  assert (forall j, (j < 2 * S m)%nat -> (j < 2 * m)%nat \/ j = (2 * m)%nat \/ j = (2 * m + 1)%nat) as Hcases by lia.
  assert (ecap es' (2 * m) = c /\ ecap es' (2 * m + 1) = c) as [Ec0 Ec1].
  { unfold ecap. rewrite half_even, half_odd. unfold es'. rewrite !lookup_app_r by reflexivity. rewrite Nat.sub_diag. auto. }
  eexists. split; [reflexivity|]. split.
  - split; cbn [dn_n dn_e dn_g dn_cur dn_h]; auto.
    + split.
      * rewrite !insert_length. exact Hgl.
      * intros x js j Hx. rewrite Hl'.
        assert (j ∈ js <-> (exists js0, g !! x = Some js0 /\ j ∈ js0) \/ (x = u /\ j = (2 * m)%nat) \/ (x = v /\ j = (2 * m + 1)%nat)) as ->.
        { rewrite app_length in Hx. cbn [length] in Hx. rewrite Hel in *.
          destruct (decide (x = v)) as [->|Nv].
          - rewrite list_lookup_insert in Hx by (rewrite insert_length; lia). injection Hx as <-.
            rewrite elem_of_app, elem_of_list_singleton. destruct (decide (v = u)) as [->|Nu].
            + rewrite list_lookup_insert in Hgv by lia. injection Hgv as <-. rewrite elem_of_app, elem_of_list_singleton.
              rewrite Hgu. split; [intros [[?|?]|?]; eauto|]. intros [(? & [= <-] & ?)|[[_ ?]|[_ ?]]]; auto.
            + rewrite list_lookup_insert_ne in Hgv by done. rewrite Hgv.
              split; [intros [?|?]; eauto|]. intros [(? & [= <-] & ?)|[[? ?]|[_ ?]]]; auto. congruence.
          - rewrite list_lookup_insert_ne in Hx by done. destruct (decide (x = u)) as [->|Nu].
            + rewrite list_lookup_insert in Hx by lia. injection Hx as <-. rewrite elem_of_app, elem_of_list_singleton, Hgu.
              split; [intros [?|?]; eauto|]. intros [(? & [= <-] & ?)|[[_ ?]|[? _]]]; auto. congruence.
            + rewrite list_lookup_insert_ne in Hx by done. rewrite Hx.
              split; [eauto|]. intros [(? & [= <-] & ?)|[[? _]|[? _]]]; auto; congruence. }
        split.
        -- intros [(js0 & H0 & Hj)|[[-> ->]|[-> ->]]].
           ++ apply (gwf_at es g n Hg x js0 j H0) in Hj as [Hj <-]. fold m in Hj. unfold esrc, es'. rewrite eends_app by exact Hj. split; [lia|reflexivity].
           ++ unfold esrc. rewrite Em. split; [lia|reflexivity].
           ++ unfold esrc. rewrite Em1. split; [lia|reflexivity].
        -- intros [Hj Hsrc]. destruct (Hcases j Hj) as [Hj'|[-> | ->]].
           ++ left. unfold esrc, es' in Hsrc. rewrite eends_app in Hsrc by exact Hj'. fold (esrc es j) in Hsrc.
              destruct (lookup_lt_is_Some_2 g x) as [js0 H0]; [rewrite Hgl; rewrite <- Hsrc; apply (gwf_ends es g n j Hg Hj')|].
              exists js0. split; [exact H0|]. apply (gwf_at es g n Hg x js0 j H0). auto.
           ++ unfold esrc in Hsrc. rewrite Em in Hsrc. right. left. auto.
           ++ unfold esrc in Hsrc. rewrite Em1 in Hsrc. right. right. auto.
      * intros u' v' c' [Hin|[= -> -> ->]%elem_of_list_singleton]%elem_of_app; [apply (gwf_es es g n Hg u' v' c' Hin)|auto].
    + split.
      * rewrite Hl'. unfold e'. rewrite !app_length. cbn. lia.
      * intros j Hj. rewrite Hl' in Hj. destruct (Hcases j Hj) as [Hj'|[-> | ->]].
        -- rewrite Cl by exact Hj'. rewrite Ee', lookup_app_l by lia. unfold eto, es'. rewrite eends_app by exact Hj'. apply (ewf_at es e He j Hj').
        -- rewrite Cm. unfold eto. rewrite Em, Ee', lookup_app_r by lia. replace (2 * m - length e)%nat with 0%nat by lia. reflexivity.
        -- rewrite Cm1. unfold eto. rewrite Em1, Ee', lookup_app_r by lia. replace (2 * m + 1 - length e)%nat with 1%nat by lia. reflexivity.
      * intros j Hj. rewrite Hl' in Hj. destruct (Hcases j Hj) as [Hj'|[-> | ->]]; [rewrite Cl by exact Hj'; apply (ewf_nonneg es e He j Hj')|lia..].
      * intros j Hj. rewrite Hl' in Hj. destruct (Hcases j Hj) as [Hj'|[-> | ->]].
        -- rewrite !Cl by (try apply partner_lt; exact Hj'). unfold es'. rewrite ecap_app by exact Hj'. apply (ewf_pair es e He j Hj').
        -- rewrite partner_even, Cm, Cm1, Ec0. lia.
        -- rewrite partner_odd, Cm, Cm1, Ec1. lia.
  - intros x. cbn [dn_e]. unfold netf. rewrite Hl'. cbn [zsum]. rewrite Cm1. rewrite Z.mul_0_l, Z.add_0_r. fold m.
    apply zsum_ext. intros k Hk. rewrite Cl by lia. unfold esrc, eto, es'. rewrite eends_app by (fold m; lia). reflexivity.
Qed.

Lemma dn_new_inv n : dinv n [] (dn_new n).
Proof.
  split; cbn; try apply replicate_length; auto.
  - split; [apply replicate_length| |intros u v c H%elem_of_nil; done].
    intros x js j H. apply lookup_replicate in H as [-> _]. split; [intros H%elem_of_nil; done|cbn; lia].
  - split; cbn; auto; intros; lia.
Qed.

(** ** Histories *)
Lemma feasible_app es es2 s t fs : Forall (fun x => 0 <= x.2) es2 -> feasible es s t fs ->
  feasible (es ++ es2) s t (fs ++ replicate (length es2) 0) /\ flow_value (es ++ es2) s (fs ++ replicate (length es2) 0) = flow_value es s fs.
Proof.
  intros H2 [Hb Hc].
  assert (forall x, outflow es2 (replicate (length es2) 0) x = 0 /\ inflow es2 (replicate (length es2) 0) x = 0) as Hz.
  { intros x. clear. induction es2 as [|[[u v] c] es2 [IH1 IH2]]; cbn; [auto|]. rewrite IH1, IH2. destruct (u =? x)%nat, (v =? x)%nat; auto. }
  assert (forall x, outflow (es ++ es2) (fs ++ replicate (length es2) 0) x = outflow es fs x /\
                    inflow (es ++ es2) (fs ++ replicate (length es2) 0) x = inflow es fs x) as Ha.
  { intros x. clear Hc. induction Hb as [|[[u v] c] f es fs Hf Hb [IH1 IH2]]; cbn [app outflow inflow]; [apply Hz|]. rewrite IH1, IH2. auto. }
  split; [split|].
  - apply Forall2_app; [exact Hb|]. clear -H2. induction H2; cbn; constructor; auto. lia.
  - intros x Hs Ht. destruct (Ha x) as [-> ->]. auto.
  - unfold flow_value. destruct (Ha s) as [-> ->]. reflexivity.
Qed.

Definition dn_valid (T : ity) (n s t : nat) (o : dn_op) : Prop :=
  match o with
  | DnEdge u v c => (u < n)%nat /\ (v < n)%nat /\ 0 <= c <= it_max T
  | DnFlow s' t' => s' = s /\ t' = t
  end.

Lemma dn_history T n s t : 0 < it_max T -> it_min T <= 0 -> Z.of_nat n <= 2 ^ 31 - 1 -> (s < n)%nat -> (t < n)%nat -> s <> t ->
  forall ops es d tot, Forall (dn_valid T n s t) ops -> Forall (fun x => 0 <= x.2 <= it_max T) es ->
  dinv n es d -> 0 <= tot -> (forall x, x <> s -> x <> t -> netf es (dn_e d) x = 0) -> netf es (dn_e d) s = tot ->
  (forall fs, feasible (es ++ dn_edges ops) s t fs -> flow_value (es ++ dn_edges ops) s fs <= it_max T) ->
  exists d' outs, run (dn_step T) d ops = Ok (d', outs) /\ dn_spec s t es tot ops outs.
Proof.
  intros HT HTm Hn Hs Ht Hst ops. induction ops as [|o ops IH]; intros es d tot Hops Hes Hd Htot Hnet Hv Hmax.
  { exists d, []. split; [reflexivity|exact I]. }
  inversion Hops as [|? ? Ho Hops']; subst. destruct o as [u v c|s' t'].
  - destruct Ho as (Hu & Hv' & Hc). cbn [run dn_step dn_edges] in *.
    destruct (add_edge_ok n es d u v c Hd Hu Hv' ltac:(lia)) as (d1 & E & Hd1 & Hn1). rewrite E. cbn [mbind res_bind].
    destruct (IH (es ++ [(u, v, c)]) d1 (netf es (dn_e d) s) Hops') as (d2 & outs & E2 & S2).
    + apply Forall_app. split; [exact Hes|]. constructor; [exact Hc|constructor].
    + exact Hd1.
    + exact Htot.
    + intros x X1 X2. rewrite Hn1. auto.
    + apply Hn1.
    + rewrite <- app_assoc. exact Hmax.
    + rewrite E2. cbn [mbind res_bind]. exists d2, (None :: outs). split; [reflexivity|exact S2].
  - destruct Ho as [-> ->]. cbn [run dn_step dn_edges] in *.
    assert (Forall (fun x : fedge => 0 <= x.2) (dn_edges ops)) as Hpos.
    { clear -Hops'. induction ops as [|[u v c|s' t'] ops IH]; cbn [dn_edges]; [constructor|..]; inversion Hops' as [|? ? H1 H2]; subst; auto.
      constructor; [cbn in *; lia|auto]. }
    destruct (max_flow_ok T n es d s t (netf es (dn_e d) s)) as (d1 & w & E & Hw & Hd1 & Hn1 & Hv1 & M1 & M2); auto.
    { intros j. unfold ecap. destruct (es !! (j / 2)%nat) as [[[u v] c]|] eqn:E; [|lia].
      rewrite Forall_forall in Hes. apply (Hes (u, v, c)). eapply elem_of_list_lookup_2. exact E. }
    { intros fs Hfs. destruct (feasible_app es (dn_edges ops) s t fs Hpos Hfs) as [F1 F2]. specialize (Hmax _ F1). lia. }
    rewrite E. cbn [mbind res_bind fst snd].
    destruct (IH es d1 (netf es (dn_e d) s + w) Hops' Hes Hd1) as (d2 & outs & E2 & S2); auto; [lia|].
    rewrite E2. cbn [mbind res_bind]. exists d2, (Some w :: outs). split; [reflexivity|]. cbn [dn_spec]. auto.
Qed.

(** ** Source equal to target: the search never meets the target, as if the target were no vertex at all *)
Lemma bfs_scan_self e s n u : forall es h q, Forall (fun j => forall v c, e !! j = Some (v, c) -> (v < n)%nat) es -> hl h s = 0 ->
  bfs_scan e u s es h q = bfs_scan e u n es h q /\
  forall b h' q', bfs_scan e u n es h q = Ok (b, (h', q')) -> hl h' s = 0.
Proof.
  induction es as [|j es IH]; intros h q Hes Hh; cbn [bfs_scan].
  { split; [reflexivity|]. intros b h' q' [= <- <- <-]. exact Hh. }
  inversion Hes as [|? ? Hj Hes']; subst. destruct (vget e j) as [[v c]| |] eqn:Ej; cbn [mbind res_bind]; [|split; [reflexivity|discriminate]..].
  apply vget_ok_iff in Ej. specialize (Hj v c Ej). destruct (0 <? c); [|apply IH; auto].
  destruct (vget h v) as [hv| |] eqn:Ev; cbn [mbind res_bind]; [|split; [reflexivity|discriminate]..]. apply vget_ok_iff in Ev.
  destruct (Z.eqb_spec hv (-1)) as [->|Hne]; [|apply IH; auto].
  assert (v <> s) as Hvs. { intros ->. unfold hl in Hh. rewrite Ev in Hh. lia. }
  destruct (vget h u) as [hu| |]; cbn [mbind res_bind]; [|split; [reflexivity|discriminate]..].
  destruct (iadd i32 hu 1) as [d| |]; cbn [mbind res_bind]; [|split; [reflexivity|discriminate]..].
  destruct (decide (v < length h)%nat) as [Hl|Hl]; [rewrite vset_ok by exact Hl|rewrite vset_panic by lia]; cbn [mbind res_bind]; [|split; [reflexivity|discriminate]].
  destruct (Nat.eqb_spec v s); [congruence|]. destruct (Nat.eqb_spec v n); [lia|].
  apply IH; [exact Hes'|]. rewrite hl_insert by exact Hl. rewrite decide_False by congruence. exact Hh.
Qed.
Lemma bfs_self es g n e h0 s : gwf es g n -> ewf es e -> Z.of_nat n <= 2 ^ 31 - 1 -> (s < n)%nat -> length h0 = n ->
  exists h, bfs e g h0 s s = Ok (false, h) /\ length h = n.
Proof.
  intros Hg Hwf Hn Hs Hl. destruct (bfs_ok es g n Hg e Hwf Hn s n Hs ltac:(lia) h0 Hl) as (b & h & E & Hb).
  assert (bfs e g h0 s s = bfs e g h0 s n) as ->.
  { unfold bfs. rewrite vset_ok by (rewrite replicate_length; lia). cbn [mbind res_bind].
    assert (hl (<[s:=0]> (replicate (length h0) (-1))) s = 0) as Hini.
    { rewrite hl_insert by (rewrite replicate_length; lia). rewrite decide_True by done. reflexivity. }
    revert Hini. generalize (<[s:=0]> (replicate (length h0) (-1))) [s]. generalize (S (S (length g))). clear -Hg Hwf.
    assert (forall h q, hl h s = 0 -> bfs_step e g s (h, q) = bfs_step e g n (h, q) /\
      forall h' q', bfs_step e g n (h, q) = Ok (inl (h', q')) -> hl h' s = 0) as Hstep.
    { intros h [|u q] Hh; cbn [bfs_step]; [split; [reflexivity|discriminate]|].
      destruct (vget g u) as [js| |] eqn:Eu; cbn [mbind res_bind]; [|split; [reflexivity|discriminate]..]. apply vget_ok_iff in Eu.
      destruct (bfs_scan_self e s n u js h q) as [-> H2]; [|exact Hh|].
      { apply Forall_forall. intros j Hj v c Ej. apply (gwf_at es g n Hg u js j Eu) in Hj as [Hj _]. rewrite (ewf_at es e Hwf j Hj) in Ej. injection Ej as <- _.
        apply (gwf_ends es g n j Hg Hj). }
      split; [reflexivity|]. intros h' q'. destruct (bfs_scan e u n js h q) as [[b [h1 q1]]| |]; cbn [mbind res_bind fst snd]; [|discriminate..].
      destruct b; [discriminate|]. intros [= <- <-]. eapply H2. reflexivity. }
    induction n0 as [|k IH]; intros h q Hh; [reflexivity|]. cbn [rloop]. destruct (Hstep h q Hh) as [-> H2].
    destruct (bfs_step e g n (h, q)) as [[[h' q']|r]| |]; cbn [mbind res_bind]; [|reflexivity..]. apply IH. eapply H2. reflexivity. }
  rewrite E. destruct b.
  - exfalso. destruct Hb. pose proof (hl_ge0_lt h n ltac:(lia)). lia.
  - exists h. split; [reflexivity|apply Hb].
Qed.
Lemma max_flow_self T n es d s : dinv n es d -> Z.of_nat n <= 2 ^ 31 - 1 -> (s < n)%nat ->
  exists d', dn_max_flow T d s s = Ok (d', 0) /\ dinv n es d' /\ dn_e d' = dn_e d.
Proof.
  intros [H1 H2 H3 H4 H5] Hn Hs. unfold dn_max_flow. rewrite H1. destruct (Nat.ltb_spec s n); [|lia]. cbn [rassert mbind res_bind rloop flow_step].
  destruct (bfs_self es (dn_g d) n (dn_e d) (dn_h d) s) as (h & -> & Hh); auto. cbn [mbind res_bind]. eexists. split; [reflexivity|]. split; [split; auto|reflexivity].
Qed.

(** ** Any history *)
Lemma ind_if s x v : v * ind s x = if (s =? x)%nat then v else 0.
Proof. unfold ind. destruct (s =? x)%nat; lia. Qed.
Lemma flow_of_within es e : ewf es e -> Forall2 (fun e f => 0 <= f <= e.2) es (flow_of es e).
Proof.
  intros H. apply Forall2_same_length_lookup_2; [symmetry; apply flow_of_len|].
  intros k [[u v] c] f Hk Hf. pose proof (lookup_lt_Some _ _ _ Hk) as Hkl. rewrite flow_of_at in Hf by exact Hkl. injection Hf as <-.
  pose proof (ewf_pair es e H (2 * k + 1) ltac:(lia)) as Hp. rewrite (ecap_at es k u v c Hk), partner_odd in Hp.
  pose proof (ewf_nonneg es e H (2 * k) ltac:(lia)). pose proof (ewf_nonneg es e H (2 * k + 1) ltac:(lia)). cbn. lia.
Qed.
Lemma shifted_reroute es s t e e' v : ewf es e' -> shifted es s t e e' v -> reroute es s t (flow_of es e) (flow_of es e') v.
Proof.
  intros H Hx. split; [apply flow_of_within; exact H|]. intros x. unfold net_out. rewrite !flow_of_net, (Hx x), <- !ind_if. lia.
Qed.
Lemma closed_cut es n e s t h : ewf es e -> closed es n e s t h -> cutflow es (flow_of es e) (fun x => 0 <=? hl h x) = cut_cap es (fun x => 0 <=? hl h x).
Proof.
  intros Hwf (Hl & Hhs & Hht & Hcl). apply cutflow_eq.
  apply Forall2_same_length_lookup_2; [symmetry; apply flow_of_len|].
  intros k [[u v] c] f Hk Hf. pose proof (lookup_lt_Some _ _ _ Hk) as Hkl. rewrite flow_of_at in Hf by exact Hkl. injection Hf as <-.
  pose proof (ewf_pair es e Hwf (2 * k + 1) ltac:(lia)) as Hp. rewrite (ecap_at es k u v c Hk), partner_odd in Hp.
  pose proof (ewf_nonneg es e Hwf (2 * k) ltac:(lia)). pose proof (ewf_nonneg es e Hwf (2 * k + 1) ltac:(lia)).
  pose proof (Hcl (2 * k)%nat ltac:(lia)) as H1. pose proof (Hcl (2 * k + 1)%nat ltac:(lia)) as H2.
  unfold esrc, eto in H1, H2. rewrite !eends_even in H1. rewrite !eends_odd in H2. rewrite Hk in H1, H2. cbn in H1, H2 |- *.
  split; intros Hu Hv.
  - apply Z.leb_le in Hu. apply Z.leb_gt in Hv. specialize (H1 Hu). lia.
  - apply Z.leb_le in Hv. apply Z.leb_gt in Hu. specialize (H2 Hv). lia.
Qed.
Lemma reroute_cut n es s t fs fs' v (X : nat -> bool) : (forall u v c, (u, v, c) ∈ es -> (u < n)%nat /\ (v < n)%nat) -> (s < n)%nat ->
  X s = true -> X t = false -> reroute es s t fs fs' v -> cutflow es fs' X = cutflow es fs X + v.
Proof.
  intros Hes Hs Xs Xt [_ H]. rewrite <- !(cutflow_sum n X es _ Hes).
  rewrite (zsum_ext _ (fun x => (if X x then outflow es fs x - inflow es fs x else 0) + (if (s =? x)%nat then v else 0))).
  - rewrite zsum_add. f_equal. rewrite (zsum_single _ n s Hs); [rewrite Nat.eqb_refl; reflexivity|].
    intros k _ Hk. destruct (Nat.eqb_spec s k); [congruence|reflexivity].
  - intros k _. specialize (H k). unfold net_out in H. destruct (X k) eqn:Xk.
    + destruct (Nat.eqb_spec t k); [congruence|]. lia.
    + destruct (Nat.eqb_spec s k); [congruence|]. lia.
Qed.
Lemma closed_most es g n e e0 s t h v : gwf es g n -> ewf es e -> (s < n)%nat -> closed es n e s t h -> shifted es s t e0 e v ->
  forall fs v', reroute es s t (flow_of es e0) fs v' -> v' <= v.
Proof.
  intros Hg Hwf Hs Hc Hx fs v' Hr. pose proof (shifted_reroute es s t e0 e v Hwf Hx) as Hr0. pose proof (closed_cut es n e s t h Hwf Hc) as Hcut.
  destruct Hc as (_ & Hhs & Hht & _). set (X := fun x => 0 <=? hl h x) in *.
  assert (X s = true /\ X t = false) as [Xs Xt] by (unfold X; rewrite Hhs, Hht; auto).
  pose proof (reroute_cut n es s t _ _ _ X (gwf_es es g n Hg) Hs Xs Xt Hr0). pose proof (reroute_cut n es s t _ _ _ X (gwf_es es g n Hg) Hs Xs Xt Hr).
  pose proof (cutflow_le es fs X (proj1 Hr)). lia.
Qed.
Lemma add_edge_flow n es d u v c d' : dinv n es d -> dn_add_edge d u v c = Ok d' -> flow_of (es ++ [(u, v, c)]) (dn_e d') = flow_of es (dn_e d) ++ [0].
Proof.
  intros Hd E. assert (dn_e d' = dn_e d ++ [(v, c); (u, 0)]) as ->.
  { unfold dn_add_edge in E. repeat (apply rbind_ok_inv in E as (? & _ & E)). injection E as <-. cbn [dn_e]. rewrite <- app_assoc. reflexivity. }
  pose proof (ewf_len _ _ (di_e _ _ _ Hd)) as Hl. unfold flow_of. rewrite app_length. cbn [length]. rewrite seq_app, map_app. cbn [seq map plus]. f_equal.
  - apply map_ext_in. intros k Hk%in_seq. unfold cap. rewrite lookup_app_l by lia. reflexivity.
  - f_equal. unfold cap. rewrite lookup_app_r by lia. replace (2 * length es + 1 - length (dn_e d))%nat with 1%nat by lia. reflexivity.
Qed.
Lemma add_edge_bad n es d u v c : dinv n es d -> ~ ((u < n)%nat /\ (v < n)%nat) -> dn_add_edge d u v c = Panic.
Proof.
  intros Hd H. pose proof (gwf_len _ _ _ (di_g _ _ _ Hd)) as Hl. unfold dn_add_edge. destruct (decide (u < n)%nat) as [Hu|Hu].
  - destruct (vget_lt (dn_g d) u ltac:(lia)) as (gu & -> & _). cbn [mbind res_bind]. rewrite vset_ok by lia. cbn [mbind res_bind].
    rewrite vget_panic by (rewrite insert_length; lia). reflexivity.
  - rewrite vget_panic by lia. reflexivity.
Qed.
Lemma any_history T n : 0 < it_max T -> it_min T <= 0 -> Z.of_nat n <= 2 ^ 31 - 1 ->
  forall ops es d, Forall (fun o => match o with DnEdge _ _ c => 0 <= c <= it_max T | DnFlow _ _ => True end) ops ->
  Forall (fun x => 0 <= x.2 <= it_max T) es -> dinv n es d ->
  dn_allowed T n es (flow_of es (dn_e d)) ops (snd <$> run (dn_step T) d ops).
Proof.
  intros HT HTm Hn ops. induction ops as [|o ops IH]; intros es d Hops Hes Hd; [constructor|].
  inversion Hops as [|? ? Ho Hops']; subst.
  assert (forall d1 out, snd <$> ('(s, outs) ← run (dn_step T) d1 ops; Ok (s, out :: outs)) = cons out <$> (snd <$> run (dn_step T) d1 ops)) as Hcons.
  { intros d1 out. destruct (run (dn_step T) d1 ops) as [[? ?]| |]; reflexivity. }
  destruct o as [u v c|s t]; cbn [run dn_step].
  - destruct (decide ((u < n)%nat /\ (v < n)%nat)) as [[Hu Hv]|Hb].
    + destruct (add_edge_ok n es d u v c Hd Hu Hv ltac:(lia)) as (d1 & E & Hd1 & _). pose proof (add_edge_flow n es d u v c d1 Hd E) as Hf.
      rewrite E. cbn [mbind res_bind]. rewrite Hcons. constructor; auto. rewrite <- Hf. apply IH; auto. apply Forall_app. split; [exact Hes|]. constructor; [exact Ho|constructor].
    + rewrite (add_edge_bad n es d u v c Hd Hb). cbn. constructor. exact Hb.
  - destruct (decide ((s < n)%nat /\ (t < n)%nat)) as [[Hs Ht]|Hb].
    + destruct (decide (s = t)) as [<-|Hst].
      * destruct (max_flow_self T n es d s Hd Hn Hs) as (d1 & E & Hd1 & He). rewrite E. cbn [mbind res_bind fst snd]. rewrite Hcons. constructor; [exact Hs|].
        rewrite <- He. apply IH; auto.
      * destruct (max_flow_gen T n es d s t) as [[E (e' & v & Hw & Hv & Hx)]|(d1 & v & E & Hv & Hd1 & Hx & Hc)]; auto.
        { intros j. unfold ecap. destruct (es !! (j / 2)%nat) as [[[u v] c]|] eqn:E; [|lia].
          rewrite Forall_forall in Hes. apply (Hes (u, v, c)). eapply elem_of_list_lookup_2. exact E. }
        -- rewrite E. cbn. eapply (da_overflow _ _ _ _ (flow_of es e')); eauto. apply shifted_reroute; auto.
        -- rewrite E. cbn [mbind res_bind fst snd]. rewrite Hcons. apply (da_flow _ _ _ _ (flow_of es (dn_e d1))); auto; [|..|lia].
           ++ apply shifted_reroute; [apply Hd1|exact Hx].
           ++ eapply closed_most; eauto; apply Hd1.
    + assert (dn_max_flow T d s t = Panic) as ->.
      { unfold dn_max_flow. rewrite (di_n _ _ _ Hd). destruct (Nat.ltb_spec s n); [|reflexivity]. destruct (Nat.ltb_spec t n); [|reflexivity]. lia. }
      cbn. constructor. exact Hb.
Qed.
Close Scope Z_scope.
