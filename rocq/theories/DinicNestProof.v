(** Dinic's search: how deep the calls nest. *)
From stdpp Require Import relations.
From Verif Require Import Prelude Eff IntModel ArraySpec DinicModel DinicSpec DinicProof DinicProps GraphFlowWorkProof TreeNestProof MatchingNestProof GraphNestModel GraphNestSpec.
Open Scope Z_scope.

(** More fuel changes no answer *)
Lemma dstep_upto T (r r' : nat -> Z -> list dedge -> list nat -> res (Z * (list dedge * list nat))) g h u s :
  (forall v f e cur, upto (r v f e cur) (r' v f e cur)) -> upto (dfs_step T r g h u s) (dfs_step T r' g h u s).
Proof.
  intros H. destruct s as [[[x i] e] cur]. unfold dfs_step. apply upto_same. intros js. destruct (i <? length js)%nat; [|apply upto_refl]. apply upto_same. intros j. apply upto_same. intros [v c].
  apply upto_same. intros [|]; [|apply upto_refl]. apply upto_bind; [apply H|]. intros y. apply upto_refl.
Qed.
Lemma fdfs_upto T g h t j : forall fuel u f e cur, upto (fdfs fuel T g h t u f e cur) (fdfs (fuel + j) T g h t u f e cur).
Proof.
  induction fuel as [|fuel IH]; intros u f e cur; [left; reflexivity|]. cbn [Nat.add fdfs]. destruct (u =? t)%nat; [apply upto_refl|]. apply upto_same. intros i. apply upto_same. intros js.
  apply upto_bind; [|intros x; apply upto_refl]. apply upto_loop. intros s. apply dstep_upto, IH.
Qed.

Lemma iadd_val T a b c : iadd T a b = Ok c -> c = a + b.
Proof. unfold iadd, chk. case_match; [|discriminate]. intros [= <-]. reflexivity. Qed.

(** Every level below a level in use is in use *)
Definition levels (h : list Z) : Prop := forall x z, h !! x = Some z -> 0 < z -> exists y, h !! y = Some (z - 1).
Lemma levels_lt h x z : levels h -> h !! x = Some z -> z < Z.of_nat (length h).
Proof.
  intros Hh Hx. destruct (decide (0 <= z)) as [Hz|]; [|lia]. assert (forall k, (Z.of_nat k <= z) -> exists y, h !! y = Some (z - Z.of_nat k)) as H.
  { induction k as [|k IH]; intros Hk; [exists x; rewrite Z.sub_0_r; exact Hx|]. destruct IH as [y Hy]; [lia|]. destruct (Hh y _ Hy) as [w Hw]; [lia|]. exists w. rewrite Hw. f_equal. lia. }
  assert (length (map (fun k => (z - Z.of_nat k)%Z) (seq 0 (S (Z.to_nat z)))) <= length h)%nat as HL.
  { apply submseteq_length, NoDup_submseteq; [apply NoDup_fmap_2_strong; [intros a b _ _ E; lia|apply NoDup_seq]|]. intros w (k & -> & Hk%elem_of_seq)%elem_of_list_fmap.
    destruct (H k ltac:(lia)) as [y Hy]. eapply elem_of_list_lookup_2, Hy. }
  rewrite map_length, seq_length in HL. lia.
Qed.
Lemma levels_set h u v hu : levels h -> h !! u = Some hu -> 0 <= hu -> h !! v = Some (-1) -> levels (<[v := hu + 1]> h).
Proof.
  intros Hh Hu H0 Hv x z Hx Hz. assert (forall y w, 0 <= w -> h !! y = Some w -> <[v := hu + 1]> h !! y = Some w) as Hk by (intros y w Hw Hy; rewrite list_lookup_insert_ne; [exact Hy|]; intros <-; assert (w = -1) by congruence; lia).
  destruct (decide (x = v)) as [->|Hne].
  - rewrite list_lookup_insert in Hx by (eapply lookup_lt_Some, Hv). injection Hx as <-. exists u. apply Hk; [lia|]. rewrite Hu. f_equal. lia.
  - rewrite list_lookup_insert_ne in Hx by congruence. destruct (Hh x z Hx Hz) as [y Hy]. exists y. apply Hk; [lia|exact Hy].
Qed.
Definition inq (h : list Z) (q : list nat) : Prop := forall u, u ∈ q -> exists z, h !! u = Some z /\ 0 <= z.
Definition bgood (s : nat) (h : list Z) : Prop := levels h /\ h !! s = Some 0.
Lemma scan_good e s u t es : forall h q x, bgood s h -> inq h q -> (exists z, h !! u = Some z /\ 0 <= z) -> bfs_scan e u t es h q = Ok x -> bgood s x.2.1 /\ inq x.2.1 x.2.2.
Proof.
  induction es as [|i es IH]; intros h q x [Hh Hs] Hq (hu & Hu & H0) E; cbn [bfs_scan] in E; [injection E as <-; split; [split; [exact Hh|exact Hs]|exact Hq]|]. apply rbind_ok_inv in E as ([v c] & _ & E).
  destruct (0 <? c); [|eapply IH; [split; eassumption|exact Hq|eauto|exact E]]. apply rbind_ok_inv in E as (hv & Ev & E). apply vget_ok_iff in Ev.
  destruct (Z.eqb_spec hv (-1)) as [->|]; [|eapply IH; [split; eassumption|exact Hq|eauto|exact E]]. apply rbind_ok_inv in E as (hu' & Eu & E). apply vget_ok_iff in Eu. assert (hu' = hu) as -> by congruence.
  apply rbind_ok_inv in E as (d & Ed & E). assert (d = hu + 1) as -> by exact (iadd_val _ _ _ _ Ed). apply rbind_ok_inv in E as (h' & Eh & E). apply vset_inv in Eh as [Hv ->].
  assert (forall y w, 0 <= w -> h !! y = Some w -> <[v := hu + 1]> h !! y = Some w) as Hk by (intros y w Hw Hy; rewrite list_lookup_insert_ne; [exact Hy|]; intros <-; assert (w = -1) by congruence; lia).
  assert (bgood s (<[v := hu + 1]> h)) as HB by (split; [eapply levels_set; eauto|apply Hk; [lia|exact Hs]]).
  assert (inq (<[v := hu + 1]> h) q) as HQ by (intros y Hy; destruct (Hq y Hy) as (z & Hz & Hz0); exists z; auto).
  destruct (v =? t)%nat; [injection E as <-; auto|]. eapply IH; [exact HB| |exists hu; auto|exact E].
  intros y [Hy| ->%elem_of_list_singleton]%elem_of_app; [auto|]. exists (hu + 1). split; [apply list_lookup_insert; exact Hv|lia].
Qed.
Lemma bfs_good e g h s t x : bfs e g h s t = Ok x -> bgood s x.2 /\ length x.2 = length h.
Proof.
  intros E. split; [|eapply bfs_keeps, E]. unfold bfs in E. apply rbind_ok_inv in E as (h0 & E0 & E). apply vset_inv in E0 as [Hs ->].
  assert (bgood s (<[s:=0]> (replicate (length h) (-1)))) as H0.
  { split; [|apply list_lookup_insert; exact Hs]. intros y z Hy Hz. destruct (decide (y = s)) as [->|Hne].
    - rewrite list_lookup_insert in Hy by exact Hs. injection Hy as <-. lia.
    - rewrite list_lookup_insert_ne in Hy by congruence. apply lookup_replicate in Hy as [-> _]. lia. }
  eapply (rloop_ok (fun st : list Z * list nat => bgood s st.1 /\ inq st.1 st.2) (fun x : bool * list Z => bgood s x.2) (bfs_step e g t)); [| |exact E].
  - intros [h1 q] o [HB HQ] Eo. cbn [fst snd] in *. unfold bfs_step in Eo. destruct q as [|u q]; [injection Eo as <-; exact HB|]. apply rbind_ok_inv in Eo as (es & _ & Eo). apply rbind_ok_inv in Eo as ([b [h2 q2]] & Ex & Eo).
    destruct (scan_good e s u t es h1 q _ HB (fun y Hy => HQ y (elem_of_list_further _ _ _ Hy)) (HQ u (elem_of_list_here _ _)) Ex) as [G1 G2]. cbn [fst snd] in *. destruct b; injection Eo as <-; auto.
  - cbn [fst snd]. split; [exact H0|]. intros u ->%elem_of_list_singleton. exists 0. split; [apply H0|lia].
Qed.

(** Room for the levels that remain is enough *)
Lemma fdfs_same T g h t n j : (forall x z, h !! x = Some z -> z < Z.of_nat n) -> forall fuel u f e cur z, h !! u = Some z -> 0 <= z -> Z.of_nat n - z <= Z.of_nat fuel ->
  fdfs fuel T g h t u f e cur = fdfs (fuel + j) T g h t u f e cur.
Proof.
  intros Hh. induction fuel as [|fuel IH]; intros u f e cur z Hu Hz Hf; [specialize (Hh u z Hu); lia|]. cbn [Nat.add fdfs]. destruct (u =? t)%nat; [reflexivity|].
  destruct (vget cur u) as [i| |]; cbn [mbind res_bind]; [|reflexivity|reflexivity]. destruct (vget g u) as [js| |]; cbn [mbind res_bind]; [|reflexivity|reflexivity]. f_equal.
  apply (rloop_eq (fun _ => True)); [|auto|auto]. intros [[[r i'] e'] cur'] _. unfold dfs_step. destruct (vget g u) as [js'| |]; cbn [mbind res_bind]; [|reflexivity|reflexivity]. destruct (i' <? length js')%nat; [|reflexivity].
  destruct (vget js' i') as [jj| |]; cbn [mbind res_bind]; [|reflexivity|reflexivity]. destruct (vget e' jj) as [[v c]| |]; cbn [mbind res_bind]; [|reflexivity|reflexivity].
  destruct (if 0 <? c then _ else _) as [b| |] eqn:Eb; cbn [mbind res_bind]; [|reflexivity|reflexivity]. destruct b; [|reflexivity].
  destruct (0 <? c); [|discriminate]. apply rbind_ok_inv in Eb as (hv & Ev & Eb). apply rbind_ok_inv in Eb as (hu & Eu & Eb). apply rbind_ok_inv in Eb as (d & Ed & Eb). apply vget_ok_iff in Ev, Eu.
  assert (hu = z) as -> by congruence. assert (d = z + 1) as -> by exact (iadd_val _ _ _ _ Ed). injection Eb as Eb. apply Z.eqb_eq in Eb as ->.
  rewrite (IH v (Z.min r c) e' cur' (z + 1)); [reflexivity|exact Ev|lia|lia].
Qed.

Definition nshape (n : nat) (d : dinic) : Prop := length (dn_h d) = n /\ length (dn_g d) = n.
Section Room.
  Context (T : ity) (n k : nat) (Hk : (n <= k)%nat).
  Lemma phase_same s t x : nshape n x.2 -> flow_step_stack k T s t x = flow_step T s t x.
  Proof.
    destruct x as [ans d]. intros [H1 H2]. cbn [snd] in *. unfold flow_step_stack, flow_step. destruct (bfs (dn_e d) (dn_g d) (dn_h d) s t) as [[b h]| |] eqn:E; cbn [mbind res_bind]; [|reflexivity|reflexivity].
    destruct b; [|reflexivity]. apply bfs_good in E as [[HL Hs] Hlen]. cbn [snd] in *. rewrite H1 in Hlen.
    assert (forall x, (n <= x)%nat -> forall j f e cur, fdfs x T (dn_g d) h t s f e cur = fdfs (x + j) T (dn_g d) h t s f e cur) as HS.
    { intros x Hx j f e cur. apply (fdfs_same T (dn_g d) h t n j) with (z := 0); [|exact Hs|lia|lia]. intros y z Hy. rewrite <- Hlen. eapply levels_lt; eassumption. }
    rewrite H2. rewrite (HS k Hk (S (S n))), (HS (S (S n)) ltac:(lia) k), Nat.add_comm. reflexivity.
  Qed.
  Lemma phase_shape s t x o : nshape n x.2 -> flow_step T s t x = Ok o -> match o with inl y | inr y => nshape n y.2 end.
  Proof.
    destruct x as [ans d]. intros [H1 H2] E. cbn [snd] in *. unfold flow_step in E. apply rbind_ok_inv in E as ([b h] & Eb & E). apply bfs_keeps in Eb. cbn [snd] in Eb. destruct b.
    - apply rbind_ok_inv in E as ([a [e cur]] & _ & E). apply rbind_ok_inv in E as (ans' & _ & E). injection E as <-. split; cbn; congruence.
    - injection E as <-. split; cbn; congruence.
  Qed.
  Lemma flow_same d s t : nshape n d -> dn_max_flow_stack k T d s t = dn_max_flow T d s t.
  Proof.
    intros Hd. assert (rloop (S (S (dn_n d))) (flow_step_stack k T s t) (0, d) = rloop (S (S (dn_n d))) (flow_step T s t) (0, d)) as E.
    { apply (rloop_eq (fun x : Z * dinic => nshape n x.2)); [intros x Hx; apply phase_same; exact Hx| |exact Hd]. intros x x' Hx E. exact (phase_shape s t x _ Hx E). }
    unfold dn_max_flow_stack, dn_max_flow. rewrite E. reflexivity.
  Qed.
  Lemma flow_shape d s t x : nshape n d -> dn_max_flow T d s t = Ok x -> nshape n x.1.
  Proof.
    intros Hd E. unfold dn_max_flow in E. apply rbind_ok_inv in E as ([] & _ & E). apply rbind_ok_inv in E as ([] & _ & E). apply rbind_ok_inv in E as ([ans d'] & E1 & E). injection E as <-. cbn [fst].
    change d' with ((ans, d').2). eapply (rloop_ok (fun x : Z * dinic => nshape n x.2) (fun x : Z * dinic => nshape n x.2) (flow_step T s t)); [| |exact E1]; [|exact Hd]. intros y o Hy Eo. exact (phase_shape s t y o Hy Eo).
  Qed.
  Lemma add_shape d u v c d' : nshape n d -> dn_add_edge d u v c = Ok d' -> nshape n d'.
  Proof.
    intros [H1 H2] E. unfold dn_add_edge in E. apply rbind_ok_inv in E as (gu & _ & E). apply rbind_ok_inv in E as (g & Eg & E). apply rbind_ok_inv in E as (gv & _ & E). apply rbind_ok_inv in E as (g' & Eg' & E).
    injection E as <-. split; cbn; [exact H1|]. rewrite (vset_len _ _ _ _ Eg'), (vset_len _ _ _ _ Eg). exact H2.
  Qed.
  Lemma dn_run_same ops : forall d, nshape n d -> run (dn_step_stack k T) d ops = run (dn_step T) d ops.
  Proof.
    induction ops as [|o ops IH]; intros d Hd; [reflexivity|]. cbn [run]. destruct o as [u v c|s t]; cbn [dn_step_stack dn_step].
    - destruct (dn_add_edge d u v c) as [d'| |] eqn:E; cbn [mbind res_bind]; [|reflexivity|reflexivity]. rewrite IH; [reflexivity|]. eapply add_shape; eassumption.
    - rewrite (flow_same d s t Hd). destruct (dn_max_flow T d s t) as [x| |] eqn:E; cbn [mbind res_bind]; [|reflexivity|reflexivity]. rewrite IH; [reflexivity|]. eapply flow_shape; eassumption.
  Qed.
  Lemma dn_history_same ops : run (dn_step_stack k T) (dn_new n) ops = run (dn_step T) (dn_new n) ops.
  Proof. apply dn_run_same. split; cbn; apply replicate_length. Qed.
End Room.

(** ** Too little room *)
(** A search without room to reach t sends nothing *)
Lemma fdfs_short T g h t : forall fuel u f e cur x, (u < length h)%nat -> Z.of_nat fuel <= hl h t - hl h u -> fdfs fuel T g h t u f e cur = Ok x -> x.1 = 0.
Proof.
  induction fuel as [|fuel IH]; intros u f e cur x Hlt Hf E; [discriminate|]. cbn [fdfs] in E. destruct (Nat.eqb_spec u t) as [->|Hut]; [lia|].
  apply rbind_ok_inv in E as (i & _ & E). apply rbind_ok_inv in E as (js & _ & E). apply rbind_ok_inv in E as (y & Ey & E). apply rbind_ok_inv in E as (a & Ea & E). injection E as <-. cbn [fst]. apply isub_val in Ea as ->.
  enough (y.1 = f) by lia. eapply (rloop_ok (fun s : Z * nat * list dedge * list nat => s.1.1.1 = f) (fun y : Z * (list dedge * list nat) => y.1 = f) (dfs_step T (fdfs fuel T g h t) g h u)); [| |exact Ey]; [|reflexivity].
  intros [[[r i'] e'] cur'] o Hr Eo. cbn [fst] in Hr. subst r. unfold dfs_step in Eo. apply rbind_ok_inv in Eo as (js' & _ & Eo). destruct (i' <? length js')%nat; [|injection Eo as <-; reflexivity].
  apply rbind_ok_inv in Eo as (j & _ & Eo). apply rbind_ok_inv in Eo as ([v c] & _ & Eo). apply rbind_ok_inv in Eo as (b & Eb & Eo). destruct b.
  - destruct (0 <? c); [|discriminate]. apply rbind_ok_inv in Eb as (hv & Ev & Eb). apply rbind_ok_inv in Eb as (hu & Eu & Eb). apply rbind_ok_inv in Eb as (d & Ed & Eb). apply vget_ok_iff in Ev, Eu.
    assert (d = hu + 1) as -> by exact (iadd_val _ _ _ _ Ed). injection Eb as Eb. apply Z.eqb_eq in Eb as ->.
    apply rbind_ok_inv in Eo as ([a [e2 cur2]] & Er & Eo). apply IH in Er; [|eapply lookup_lt_Some, Ev|unfold hl in *; rewrite Ev; rewrite Eu in Hf; lia]. cbn [fst] in Er. subst a.
    apply rbind_ok_inv in Eo as (ej & _ & Eo). apply rbind_ok_inv in Eo as (c1 & _ & Eo). apply rbind_ok_inv in Eo as (e3 & _ & Eo). apply rbind_ok_inv in Eo as (ek & _ & Eo). apply rbind_ok_inv in Eo as (c2 & _ & Eo).
    apply rbind_ok_inv in Eo as (e4 & _ & Eo). apply rbind_ok_inv in Eo as (r & Er & Eo). apply isub_val in Er as ->. rewrite Z.sub_0_r in Eo. destruct (f =? 0); [injection Eo as <-; reflexivity|].
    apply rbind_ok_inv in Eo as (cur3 & _ & Eo). injection Eo as <-. reflexivity.
  - apply rbind_ok_inv in Eo as (cur3 & _ & Eo). injection Eo as <-. reflexivity.
Qed.

(** A network to which edges were added and nothing else done *)
Definition fresh (es : list fedge) (d : dinic) : Prop := forall i, (i < length es)%nat -> cap (dn_e d) (2 * i + 1) = 0.
Lemma fresh_step es d h x y : ewf es (dn_e d) -> fresh es d -> lstep es h (dn_e d) x y -> hl h y = hl h x + 1 /\ exists c, (x, y, c) ∈ es /\ 0 < c.
Proof.
  intros Hw Hf (j & Hj & <- & <- & Hc & Hh). split; [exact Hh|]. destruct (parity j) as [i [-> | ->]].
  - destruct (lookup_lt_is_Some_2 es i ltac:(lia)) as [[[u v] c] E]. pose proof (ewf_pair _ _ Hw (2 * i)%nat Hj) as HP. rewrite partner_even in HP. rewrite (Hf i) in HP by lia.
    unfold ecap in HP. rewrite half_even, E in HP. exists c. unfold esrc, eto. rewrite eends_even, E. cbn [fst snd]. split; [eapply elem_of_list_lookup_2, E|lia].
  - rewrite (Hf i) in Hc by lia. lia.
Qed.
Lemma fresh_walk es d h x t : ewf es (dn_e d) -> fresh es d -> rtc (lstep es h (dn_e d)) x t -> hl h x <= hl h t /\ fwalk es x t (Z.to_nat (hl h t - hl h x)).
Proof.
  intros Hw Hf. induction 1 as [x|x y t Hxy _ [IH1 IH2]]; [rewrite Z.sub_diag; split; [lia|apply fw_nil]|]. destruct (fresh_step es d h x y Hw Hf Hxy) as (Hh & c & Hc & H0). split; [lia|].
  replace (Z.to_nat (hl h t - hl h x)) with (S (Z.to_nat (hl h t - hl h y))) by lia. eapply fw_cons; eauto.
Qed.
Lemma closed_fwalk es n d s t h x v l : ewf es (dn_e d) -> fresh es d -> closed es n (dn_e d) s t h -> fwalk es x v l -> 0 <= hl h x -> 0 <= hl h v.
Proof.
  intros Hw Hf (_ & _ & _ & Hcl). induction 1 as [x|x y v c l Hin H0 _ IH]; intros Hx; [exact Hx|]. apply IH. apply elem_of_list_lookup in Hin as [i Hi]. pose proof (lookup_lt_Some _ _ _ Hi) as Hlt.
  pose proof (Hcl (2 * i)%nat) as H. unfold esrc, eto in H. rewrite eends_even, Hi in H. cbn [fst snd] in H. apply H; [lia|exact Hx|].
  pose proof (ewf_pair _ _ Hw (2 * i)%nat ltac:(lia)) as HP. rewrite partner_even in HP. rewrite (Hf i) in HP by lia. unfold ecap in HP. rewrite half_even, Hi in HP. lia.
Qed.

Lemma flow_short T n es d s t k : 0 < it_max T -> it_min T <= 0 -> Z.of_nat n <= 2 ^ 31 - 1 -> (forall j, ecap es j <= it_max T) -> dinv n es d -> fresh es d -> (s < n)%nat -> (t < n)%nat -> s <> t ->
  far es s t k -> dn_max_flow_stack k T d s t = Diverge.
Proof.
  intros HT HTm Hn Hcap Hd Hf Hs Ht Hst [(l & Hl) Hfar]. unfold dn_max_flow_stack. rewrite (di_n _ _ _ Hd). destruct (Nat.ltb_spec s n); [|lia]. destruct (Nat.ltb_spec t n); [|lia]. cbn [rassert mbind res_bind].
  cbn [rloop]. assert (flow_step_stack k T s t (0, d) = Diverge) as ->; [|reflexivity]. unfold flow_step_stack.
  destruct (bfs_ok es (dn_g d) n (di_g _ _ _ Hd) (dn_e d) (di_e _ _ _ Hd) Hn s t Hs Hst (dn_h d) (di_h _ _ _ Hd)) as (b & h & Eb & Hb). rewrite Eb. cbn [mbind res_bind]. destruct b.
  2:{ exfalso. pose proof Hb as (_ & Hs0 & Ht0 & _). pose proof (closed_fwalk es n d s t h s t l (di_e _ _ _ Hd) Hf Hb Hl ltac:(lia)). lia. }
  destruct (fdfs_ok T HTm es (dn_g d) n (di_g _ _ _ Hd) Hcap h (fo_len _ _ _ _ _ _ Hb) (fo_b _ _ _ _ _ _ Hb) Hn t (S (S n)) s (it_max T) (dn_e d)
      (replicate (length (dn_cur d)) 0%nat)) as (a & e' & cur' & Ed & HP & Hdead); auto; try lia.
  { pose proof (fo_s _ _ _ _ _ _ Hb). lia. }
  { pose proof (fo_s _ _ _ _ _ _ Hb). lia. }
  { exact (di_e _ _ _ Hd). }
  { rewrite replicate_length. exact (di_cur _ _ _ Hd). }
  { intros x js i j c _ Hc Hi. apply lookup_replicate in Hc as [-> _]. lia. }
  pose proof (dp_a _ _ _ _ _ _ _ _ _ _ _ HP) as Hab.
  assert (0 < a) as Hpos.
  { destruct (decide (a = 0)) as [->|]; [exfalso|lia]. apply (Hdead ltac:(lia)).
    rewrite (dp_same _ _ _ _ _ _ _ _ _ _ _ HP eq_refl). apply (fo_reach _ _ _ _ _ _ Hb). }
  destruct (fdfs_upto T (dn_g d) h t (S (S n)) k s (it_max T) (dn_e d) (replicate (length (dn_cur d)) 0%nat)) as [->|Eq]; [reflexivity|]. exfalso.
  destruct (fdfs_upto T (dn_g d) h t k (S (S n)) s (it_max T) (dn_e d) (replicate (length (dn_cur d)) 0%nat)) as [Eq2|Eq2]; [congruence|]. rewrite Nat.add_comm, <- Eq2, Ed in Eq.
  destruct (fresh_walk es d h s t (di_e _ _ _ Hd) Hf (fo_reach _ _ _ _ _ _ Hb)) as [Hle Hw]. apply Hfar in Hw.
  apply fdfs_short in Eq; [cbn in Eq; lia|rewrite (fo_len _ _ _ _ _ _ Hb); exact Hs|lia].
Qed.

Definition add_ops (es : list fedge) : list dn_op := map (fun x => DnEdge x.1.1 x.1.2 x.2) es.
Lemma history_short T n es s t k : 0 < it_max T -> it_min T <= 0 -> Z.of_nat n <= 2 ^ 31 - 1 ->
  Forall (fun x => (x.1.1 < n)%nat /\ (x.1.2 < n)%nat /\ 0 <= x.2 <= it_max T) es -> (s < n)%nat -> (t < n)%nat -> s <> t -> far es s t k ->
  run (dn_step_stack k T) (dn_new n) (add_ops es ++ [DnFlow s t]) = Diverge.
Proof.
  intros HT HTm Hn Hes Hs Ht Hst Hfar. pose proof (build_cap T n es HT Hes) as Hcap.
  assert (forall rest done d, es = done ++ rest -> dinv n done d -> fresh done d -> run (dn_step_stack k T) d (add_ops rest ++ [DnFlow s t]) = Diverge) as H.
  { induction rest as [|[[u v] c] rest IH]; intros done d Ees Hd Hf; cbn [add_ops map app run fst snd dn_step_stack].
    - rewrite app_nil_r in Ees. subst done. rewrite (flow_short T n es) by assumption. reflexivity.
    - assert ((u < n)%nat /\ (v < n)%nat /\ 0 <= c <= it_max T) as (Hu & Hv & Hc). { rewrite Ees in Hes. apply Forall_app in Hes as [_ Hes]. inversion Hes; subst. assumption. }
      destruct (add_edge_ok n done d u v c Hd Hu Hv ltac:(lia)) as (d' & E' & Hd' & _). rewrite E'. cbn [mbind res_bind]. change (map _ rest) with (add_ops rest). rewrite (IH (done ++ [(u, v, c)]) d'); [reflexivity| |exact Hd'|].
      + rewrite Ees, <- app_assoc. reflexivity.
      + intros i Hi. pose proof (add_edge_flow n done d u v c d' Hd E') as Hfl. pose proof (flow_of_at (done ++ [(u, v, c)]) (dn_e d') i Hi) as Hat. rewrite Hfl in Hat. rewrite app_length in Hi. cbn [length] in Hi.
        destruct (decide (i < length done)%nat) as [Hlt|Hge].
        * rewrite lookup_app_l in Hat by (rewrite flow_of_len; exact Hlt). rewrite (flow_of_at done (dn_e d) i Hlt) in Hat. injection Hat as <-. apply Hf. exact Hlt.
        * rewrite lookup_app_r in Hat by (rewrite flow_of_len; lia). rewrite flow_of_len in Hat. replace (i - length done)%nat with 0%nat in Hat by lia. cbn in Hat. injection Hat as <-. reflexivity. }
  apply (H es []); [reflexivity|apply dn_new_inv|]. intros i Hi. cbn in Hi. lia.
Qed.
Close Scope Z_scope.
