From stdpp Require Import relations.
From Verif Require Import Prelude UtilModel SccSpec SccModel SccProof SccProps DinicProof LinkProof SatSpec SatModel.
Close Scope Z_scope.

Lemma g_push_ok g u v : u < length g -> exists g', g_push g u v = Ok g' /\ length g' = length g /\
  forall x y, edge g' x y <-> edge g x y \/ (x = u /\ y = v).
Proof.
  intros Hu. unfold g_push. destruct (lookup_lt_is_Some_2 g u Hu) as [es Hes]. rewrite (vget_ok g u es Hes). cbn [mbind res_bind].
  rewrite vset_ok by exact Hu. eexists. split; [reflexivity|]. split; [apply insert_length|]. intros x y. unfold edge.
  destruct (decide (x = u)) as [->|Hne].
  - rewrite list_lookup_insert by exact Hu. split.
    + intros (es' & [= <-] & Hy). apply elem_of_app in Hy as [Hy|Hy]; [left; eauto|right]. apply elem_of_list_singleton in Hy. auto.
    + intros [(es' & E & Hy)|[_ ->]]; (eexists; split; [reflexivity|]); apply elem_of_app; [left|right; left]. congruence.
  - rewrite list_lookup_insert_ne by auto. split; [auto|]. intros [H|[? _]]; [exact H|contradiction].
Qed.

Lemma g_push_panic g u v : length g <= u -> g_push g u v = Panic.
Proof. intros H. unfold g_push. rewrite vget_panic by exact H. reflexivity. Qed.

Definition lits (n : nat) (cs : list (nat * nat)) : Prop := forall a b, (a, b) ∈ cs -> a < 2 * n /\ b < 2 * n.
#[global] Instance lits_dec n cs : Decision (lits n cs).
Proof.
  destruct (decide (Forall (fun p : nat * nat => p.1 < 2 * n /\ p.2 < 2 * n) cs)) as [H|H].
  - left. intros a b Hab. rewrite Forall_forall in H. apply (H (a, b) Hab).
  - right. intros L. apply H, Forall_forall. intros [a b] Hab. apply (L a b Hab).
Defined.

Definition implies (cs : list (nat * nat)) (u v : nat) : Prop :=
  exists a b, (a, b) ∈ cs /\ (u = partner a /\ v = b \/ u = partner b /\ v = a).

Lemma sat_graph_run n cs : forall g, length g = 2 * n ->
  if decide (lits n cs) then
    exists g', rfor cs (fun c g => g ← g_push g (Nat.lxor c.1 1) c.2; g_push g (Nat.lxor c.2 1) c.1) g = Ok g' /\ length g' = 2 * n /\
      forall u v, edge g' u v <-> edge g u v \/ implies cs u v
  else rfor cs (fun c g => g ← g_push g (Nat.lxor c.1 1) c.2; g_push g (Nat.lxor c.2 1) c.1) g = Panic.
Proof.
  assert (Hge : forall a, 2 * n <= a -> 2 * n <= partner a).
  { intros a Ha. destruct (le_lt_dec (2 * n) (partner a)) as [|Hlt]; [assumption|]. apply partner_lt in Hlt. rewrite partner_inv in Hlt. lia. }
  induction cs as [|[a b] cs IH]; intros g Hg.
  - rewrite decide_True by (intros a b H; inversion H). exists g. split; [reflexivity|]. split; [exact Hg|]. intros u v.
    split; [auto|]. intros [H|(a & b & H & _)]; [exact H|inversion H].
  - cbn [rfor]. change (Nat.lxor (a, b).1 1) with (partner a). change (Nat.lxor (a, b).2 1) with (partner b). cbn [fst snd].
    destruct (le_lt_dec (2 * n) a) as [Ha|Ha].
    { rewrite decide_False; [|intros L; specialize (L a b ltac:(left)); lia]. rewrite g_push_panic by (rewrite Hg; auto). reflexivity. }
    destruct (g_push_ok g (partner a) b) as (g1 & -> & L1 & E1); [rewrite Hg; apply partner_lt; exact Ha|]. cbn [mbind res_bind].
    destruct (le_lt_dec (2 * n) b) as [Hb|Hb].
    { rewrite decide_False; [|intros L; specialize (L a b ltac:(left)); lia]. rewrite g_push_panic by (rewrite L1, Hg; auto). reflexivity. }
    destruct (g_push_ok g1 (partner b) a) as (g2 & -> & L2 & E2); [rewrite L1, Hg; apply partner_lt; exact Hb|]. cbn [mbind res_bind].
    specialize (IH g2 ltac:(lia)). destruct (decide (lits n cs)) as [Hl|Hl].
    + rewrite decide_True by (intros x y H; apply elem_of_cons in H as [[= -> ->]|H]; [auto|apply Hl; exact H]).
      destruct IH as (g' & Hr & Lg & Eg). exists g'. split; [exact Hr|]. split; [exact Lg|]. intros u v. rewrite Eg, E2, E1. unfold implies. split.
      * intros [[[H|[-> ->]]|[-> ->]]|(x & y & H & Hxy)]; [auto| | |].
        -- right. exists a, b. split; [left|auto].
        -- right. exists a, b. split; [left|auto].
        -- right. exists x, y. split; [right; exact H|exact Hxy].
      * intros [H|(x & y & H & Hxy)]; [auto|]. apply elem_of_cons in H as [[= -> ->]|H]; [destruct Hxy as [[-> ->]|[-> ->]]; auto|].
        right. exists x, y. auto.
    + rewrite decide_False; [exact IH|]. intros L. apply Hl. intros x y H. apply L. right. exact H.
Qed.

Lemma sat_graph_ok n cs : lits n cs -> exists g, sat_graph n cs = Ok g /\ length g = 2 * n /\ forall u v, edge g u v <-> implies cs u v.
Proof.
  intros L. pose proof (sat_graph_run n cs (replicate (2 * n) []) (replicate_length _ _)) as H. rewrite decide_True in H by exact L.
  destruct H as (g & E & Hl & He). exists g. split; [exact E|]. split; [exact Hl|]. intros u v. rewrite He. split; [|auto].
  intros [(es & H & Hv)|H]; [|exact H]. apply lookup_replicate in H as [-> _]. inversion Hv.
Qed.

Lemma holds_partner f l : l / 2 < length f -> (holds f (partner l) <-> ~ holds f l).
Proof.
  unfold holds. destruct (parity l) as [k [-> | ->]]; rewrite ?partner_even, ?partner_odd, ?half_even, ?half_odd, ?even_even, ?even_odd;
    intros Hk; destruct (lookup_lt_is_Some_2 f k Hk) as [[|] ->]; split; congruence.
Qed.

(** An assignment that satisfies the clauses respects the implications. *)
Lemma implies_holds n cs f u v : lits n cs -> length f = n -> satisfies f cs -> implies cs u v -> holds f u -> holds f v.
Proof.
  intros L Hf S (a & b & Hab & Huv) Hu. destruct (L a b Hab) as [Ha Hb].
  assert (a / 2 < length f /\ b / 2 < length f) as [Ha' Hb'] by (rewrite Hf; split; apply Nat.div_lt_upper_bound; lia).
  destruct Huv as [[-> ->]|[-> ->]].
  - rewrite holds_partner in Hu by exact Ha'. destruct (S a b Hab); [contradiction|assumption].
  - rewrite holds_partner in Hu by exact Hb'. destruct (S a b Hab); [assumption|contradiction].
Qed.

Lemma assign_run (col : list nat) n : length col = 2 * n ->
  exists s, rfor (range 0 n) (fun i s =>
    match s with
    | None => Ok None
    | Some f => x ← vget col (2 * i); y ← vget col (2 * i + 1); Ok (if x =? y then None else Some (f ++ [x <? y]))
    end) (Some []) = Ok s /\
  match s with
  | None => exists i x, i < n /\ col !! (2 * i) = Some x /\ col !! (2 * i + 1) = Some x
  | Some f => length f = n /\ forall i, i < n -> exists x y, col !! (2 * i) = Some x /\ col !! (2 * i + 1) = Some y /\ x <> y /\ f !! i = Some (x <? y)
  end.
Proof.
  intros Hc. unfold range. apply (rfor_range_inv (fun k s => match s with
    | None => exists i x, i < n /\ col !! (2 * i) = Some x /\ col !! (2 * i + 1) = Some x
    | Some f => length f = k /\ forall i, i < k -> exists x y, col !! (2 * i) = Some x /\ col !! (2 * i + 1) = Some y /\ x <> y /\ f !! i = Some (x <? y)
    end)); [lia|split; [reflexivity|intros; lia]|].
  intros i [f|] Hi I; [|eauto]. destruct I as [Hl I].
  destruct (lookup_lt_is_Some_2 col (2 * i)) as [x Hx]; [lia|]. destruct (lookup_lt_is_Some_2 col (2 * i + 1)) as [y Hy]; [lia|].
  rewrite (vget_ok _ _ _ Hx). cbn [mbind res_bind]. rewrite (vget_ok _ _ _ Hy). cbn [mbind res_bind].
  destruct (Nat.eqb_spec x y) as [->|Hne]; (eexists; split; [reflexivity|]).
  - exists i, y. split; [lia|auto].
  - split; [rewrite app_length; cbn; lia|]. intros j Hj. destruct (decide (j = i)) as [->|].
    + exists x, y. split_and!; auto. rewrite lookup_app_r by lia. replace (i - length f) with 0 by lia. reflexivity.
    + rewrite lookup_app_l by lia. apply I. lia.
Qed.

Lemma two_sat_ok n cs : lits n cs -> (Z.of_nat (2 * n) <= 2 ^ 31 - 1)%Z ->
  exists s, two_sat n cs = Ok s /\
    match s with Some f => length f = n /\ satisfies f cs | None => forall f, length f = n -> ~ satisfies f cs end.
Proof.
  intros L Hn. unfold two_sat. destruct (sat_graph_ok n cs L) as (g & -> & Lg & Eg). cbn [mbind res_bind].
  assert (Hlt : forall u v, edge g u v -> v < 2 * n).
  { intros u v (a & b & Hab & Huv)%Eg. destruct (L a b Hab). destruct Huv as [[-> ->]|[-> ->]]; assumption. }
  destruct (scc_ok g (2 * n) Lg ltac:(lia) Hlt) as (cnt & col & -> & Hc & _ & _ & Hscc & Htopo). cbn [mbind res_bind].
  destruct (assign_run col n Hc) as (s & -> & Hs). exists s. split; [reflexivity|]. destruct s as [f|].
  - destruct Hs as [Hf Hs]. split; [exact Hf|].
    (* a false literal has a larger colour than its negation *)
    assert (Hfalse : forall l, l < 2 * n -> ~ holds f l -> exists x y, col !! l = Some x /\ col !! partner l = Some y /\ y < x).
    { intros l Hl Hh. unfold holds in Hh. destruct (parity l) as [k [-> | ->]]; rewrite ?partner_even, ?partner_odd;
        rewrite ?half_even, ?half_odd, ?even_even, ?even_odd in Hh; destruct (Hs k ltac:(lia)) as (x & y & Hx & Hy & Hne & Hk);
        rewrite Hk in Hh; destruct (Nat.ltb_spec x y); try congruence.
      - exists x, y. split_and!; [assumption|assumption|lia].
      - exists y, x. split_and!; assumption. }
    intros a b Hab. destruct (L a b Hab) as [Ha Hb].
    assert (Dec : forall l, holds f l \/ ~ holds f l) by (intros l; unfold holds; destruct (decide (f !! (l / 2) = Some (Nat.even l))); auto).
    destruct (Dec a) as [|Na]; [auto|]. destruct (Dec b) as [|Nb]; [auto|]. exfalso.
    destruct (Hfalse a Ha Na) as (x & x' & Hx & Hx' & Hxx). destruct (Hfalse b Hb Nb) as (y & y' & Hy & Hy' & Hyy).
    assert (y <= x') by (apply (Htopo (partner a) b); [apply Eg; exists a, b; auto|assumption|assumption]).
    assert (x <= y') by (apply (Htopo (partner b) a); [apply Eg; exists a, b; auto|assumption|assumption]). lia.
  - destruct Hs as (i & x & Hi & Hx & Hy). intros f Hf S. destruct (proj1 (Hscc _ _ _ _ Hx Hy) eq_refl) as [R1 R2].
    assert (Hr : forall u v, reach g u v -> holds f u -> holds f v).
    { intros u v R. induction R as [|u w v E R IH]; [auto|]. intros Hu. apply IH. apply Eg in E. eapply implies_holds; eassumption. }
    assert (Hii : i < length f) by lia. pose proof (holds_partner f (2 * i)) as Hp. rewrite half_even, partner_even in Hp. specialize (Hp Hii).
    destruct (decide (f !! i = Some true)) as [Ht|Ht].
    + assert (H1 : holds f (2 * i)) by (unfold holds; rewrite half_even, even_even; exact Ht). apply (Hr _ _ R1) in H1 as H2. tauto.
    + assert (H1 : ~ holds f (2 * i)) by (unfold holds; rewrite half_even, even_even; exact Ht). apply Hp in H1 as H2. apply (Hr _ _ R2) in H2. contradiction.
Qed.

Lemma two_sat_panics n cs : two_sat n cs <> Diverge /\ (two_sat n cs = Panic <-> ~ lits n cs \/ (2 ^ 31 <= Z.of_nat (2 * n))%Z).
Proof.
  destruct (decide (lits n cs)) as [L|L].
  - destruct (decide (2 ^ 31 <= Z.of_nat (2 * n))%Z) as [Hb|Hb].
    + unfold two_sat. destruct (sat_graph_ok n cs L) as (g & -> & Lg & _). cbn [mbind res_bind].
      rewrite (proj2 (proj2 (C25_panics g))) by (right; rewrite Lg; exact Hb). split; [discriminate|]. split; auto.
    + destruct (two_sat_ok n cs L ltac:(lia)) as (s & -> & _). split; [discriminate|]. split; [discriminate|]. intros [?|?]; contradiction.
  - unfold two_sat, sat_graph. pose proof (sat_graph_run n cs (replicate (2 * n) []) (replicate_length _ _)) as H. rewrite decide_False in H by exact L.
    rewrite H. split; [discriminate|]. split; auto.
Qed.

(** ** Topological sorting *)
Lemma topo_ok g : (forall u v, edge g u v -> v < length g) -> (Z.of_nat (length g) <= 2 ^ 31 - 1)%Z ->
  exists s, topo_sort g = Ok s /\
    match s with
    | Some order => order ≡ₚ seq 0 (length g) /\ forall u v, edge g u v -> u <> v -> before order u v
    | None => exists u v, u <> v /\ reach g u v /\ reach g v u
    end.
Proof.
  intros Hlt Hn. unfold topo_sort. destruct (scc_ok g (length g) eq_refl Hn Hlt) as (cnt & col & -> & Hc & Hk & Hsur & Hscc & Htopo). cbn [mbind res_bind].
  set (n := length g) in *.
  assert (Hcount : cnt <= n).
  { rewrite <- (seq_length cnt 0), <- (seq_length n 0). apply (inj_length (fun k u => col !! u = Some k)).
    - apply NoDup_seq.
    - intros k Hk'%elem_of_seq. destruct (Hsur k ltac:(lia)) as (u & Hu). exists u. split; [|exact Hu]. apply elem_of_seq. apply lookup_lt_Some in Hu. lia.
    - intros a a' b _ _ H1 H2. congruence. }
  destruct (Nat.ltb_spec cnt n) as [Hlt'|Hge].
  - eexists. split; [reflexivity|]. cbn beta iota.
    destruct (decide (NoDup col)) as [Hnd|Hnd].
    + exfalso. assert (n <= cnt); [|lia]. rewrite <- (seq_length n 0), <- (seq_length cnt 0) at 1. apply (inj_length (fun u k => col !! u = Some k)).
      * apply NoDup_seq.
      * intros u Hu%elem_of_seq. destruct (lookup_lt_is_Some_2 col u ltac:(lia)) as [k Hu']. exists k. split; [|exact Hu']. apply elem_of_seq. specialize (Hk _ _ Hu'). lia.
      * intros a a' b _ _ H1 H2. eapply NoDup_lookup; eassumption.
    + rewrite NoDup_alt in Hnd.
      assert (E : exists u v, u < v < n /\ col !! u = col !! v).
      { destruct (decide (Exists (fun v => Exists (fun u => col !! u = col !! v) (seq 0 v)) (seq 0 n))) as [H|H].
        - apply Exists_exists in H as (v & Hv%elem_of_seq & H). apply Exists_exists in H as (u & Hu%elem_of_seq & E). exists u, v. split; [lia|exact E].
        - exfalso. apply Hnd. intros i j x Hi Hj. apply lookup_lt_Some in Hi as Hi'. apply lookup_lt_Some in Hj as Hj'.
          destruct (lt_eq_lt_dec i j) as [[Hij| ->]|Hij]; [exfalso; apply H|reflexivity|exfalso; apply H].
          + apply Exists_exists. exists j. split; [apply elem_of_seq; lia|]. apply Exists_exists. exists i. split; [apply elem_of_seq; lia|congruence].
          + apply Exists_exists. exists i. split; [apply elem_of_seq; lia|]. apply Exists_exists. exists j. split; [apply elem_of_seq; lia|congruence]. }
      destruct E as (u & v & Huv & E). destruct (lookup_lt_is_Some_2 col u ltac:(lia)) as [k Hu]. exists u, v. split; [lia|].
      apply (Hscc u v k k Hu); [congruence|reflexivity].
  - assert (cnt = n) as -> by lia.
    assert (Hinj : forall u v k, col !! u = Some k -> col !! v = Some k -> u = v).
    { intros u v k Hu Hv. destruct (decide (u = v)) as [|Hne]; [assumption|exfalso].
      assert (n <= n - 1); [|apply lookup_lt_Some in Hu; lia].
      assert (Hlen : length (filter (fun x => x <> u) (seq 0 n)) <= n - 1).
      { assert (Hsub : u :: filter (fun x => x <> u) (seq 0 n) ⊆+ seq 0 n).
        { apply NoDup_submseteq.
          - apply NoDup_cons. split; [rewrite elem_of_list_filter; tauto|apply NoDup_filter, NoDup_seq].
          - intros x [->|Hx]%elem_of_cons; [apply elem_of_seq; apply lookup_lt_Some in Hu; lia|]. apply elem_of_list_filter in Hx. tauto. }
        apply submseteq_length in Hsub. cbn [length] in Hsub. rewrite seq_length in Hsub. lia. }
      rewrite <- Hlen, <- (seq_length n 0) at 1. apply (inj_length (fun c x => col !! x = Some c)).
      - apply NoDup_seq.
      - intros c Hc'%elem_of_seq. destruct (decide (c = k)) as [->|Hck].
        + exists v. split; [|exact Hv]. apply elem_of_list_filter. split; [auto|]. apply elem_of_seq. apply lookup_lt_Some in Hv. lia.
        + destruct (Hsur c ltac:(lia)) as (x & Hx). exists x. split; [|exact Hx]. apply elem_of_list_filter. split; [congruence|]. apply elem_of_seq. apply lookup_lt_Some in Hx. lia.
      - intros a a' b _ _ H1 H2. congruence. }
    destruct (rfor_range_inv (fun v (order : list nat) => length order = n /\ forall u k, u < v -> col !! u = Some k -> order !! (n - 1 - k) = Some u) 0 n
      (fun v order => x ← nsub n 1; c ← vget col v; k ← nsub x c; vset order k v) (replicate n 0)) as (order & Hr & Ho & Hord).
    + lia.
    + split; [apply replicate_length|intros; lia].
    + intros v order Hv [Ho I]. destruct (lookup_lt_is_Some_2 col v ltac:(lia)) as [k Hkv]. pose proof (Hk _ _ Hkv).
      unfold nsub. destruct (Nat.leb_spec 1 n); [|lia]. cbn [mbind res_bind]. rewrite (vget_ok _ _ _ Hkv). cbn [mbind res_bind].
      destruct (Nat.leb_spec k (n - 1)); [|lia]. cbn [mbind res_bind]. rewrite vset_ok by lia. eexists. split; [reflexivity|].
      split; [rewrite insert_length; exact Ho|]. intros u k' Hu Hk'. pose proof (Hk _ _ Hk'). destruct (decide (u = v)) as [->|Hne].
      * assert (k' = k) as -> by congruence. apply list_lookup_insert. lia.
      * rewrite list_lookup_insert_ne; [apply I; [lia|exact Hk']|]. intros E. apply Hne. apply (Hinj u v k); [|exact Hkv]. replace k with k' by lia. exact Hk'.
    + unfold range. rewrite Hr. cbn [mbind res_bind]. eexists. split; [reflexivity|]. cbn beta iota.
      assert (Hpos : forall u, u < n -> exists k, k < n /\ col !! u = Some k /\ order !! (n - 1 - k) = Some u).
      { intros u Hu. destruct (lookup_lt_is_Some_2 col u ltac:(lia)) as [k Hu']. exists k. split; [exact (Hk _ _ Hu')|]. split; [exact Hu'|]. apply Hord; assumption. }
      split.
      * symmetry. apply submseteq_Permutation_length_le; [rewrite seq_length; lia|]. apply NoDup_submseteq; [apply NoDup_seq|].
        intros u Hu%elem_of_seq. destruct (Hpos u ltac:(lia)) as (k & _ & _ & H). apply elem_of_list_lookup_2 in H. exact H.
      * intros u v E Hne. assert (Hu : u < n) by (destruct E as (es & H & _); apply lookup_lt_Some in H; exact H). specialize (Hlt u v E) as Hv.
        destruct (Hpos u Hu) as (ku & Hku & Hcu & Hou). destruct (Hpos v Hv) as (kv & Hkv & Hcv & Hov).
        pose proof (Htopo u v ku kv E Hcu Hcv). assert (ku <> kv) by (intros ->; apply Hne; eapply Hinj; eassumption).
        exists (n - 1 - ku), (n - 1 - kv). split; [lia|auto].
Qed.

Lemma before_acyclic g order : order ≡ₚ seq 0 (length g) -> (forall u v, edge g u v -> v < length g) ->
  (forall u v, edge g u v -> u <> v -> before order u v) -> forall u v, reach g u v -> reach g v u -> u = v.
Proof.
  intros Hp Hlt Hb. assert (Hnd : NoDup order) by (rewrite Hp; apply NoDup_seq).
  assert (Htr : forall u v, reach g u v -> u = v \/ before order u v).
  { intros u v R. induction R as [|u w v E R IH]; [auto|]. destruct (decide (u = w)) as [->|Hne]; [exact IH|]. right.
    destruct (Hb u w E Hne) as (i & j & Hij & Hi & Hj). destruct IH as [->|(j' & k & Hjk & Hj' & Hk)]; [exists i, j; auto|].
    assert (j' = j) as -> by (eapply NoDup_lookup; eassumption). exists i, k. split; [lia|auto]. }
  intros u v R1 R2. destruct (Htr u v R1) as [|(i & j & Hij & Hi & Hj)]; [assumption|].
  destruct (Htr v u R2) as [|(j' & i' & Hij' & Hj' & Hi')]; [congruence|]. exfalso.
  assert (j' = j) as -> by (eapply NoDup_lookup; eassumption). assert (i' = i) as -> by (eapply NoDup_lookup; eassumption). lia.
Qed.
