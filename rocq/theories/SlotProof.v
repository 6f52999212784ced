From Verif Require Import Prelude IntModel DinicModel RingModel RingProof RoomModel RoomProof SlotModel.

Lemma push_slot_ok c k (r : ring nat) l x : holds r l -> rg_cap r <= c -> length l < k -> Nat.max 4 (2 * (k - 1)) <= c -> exists r', push_slot c r x = Ok r' /\ holds r' (l ++ [x]) /\ rg_cap r' <= c.
Proof.
  intros H Hc Hk Hm. destruct (push_ok r l x H) as (r' & E & H' & _ & C). unfold push_slot. rewrite E. cbn [mbind res_bind]. assert (rg_cap r' <= c) as Hr.
  { destruct C as [->|[L ->]]; [exact Hc|]. rewrite (h_len _ _ H'), app_length in L. cbn in L. unfold new_cap. lia. }
  rewrite (proj2 (Nat.leb_le _ _) Hr). exists r'. auto.
Qed.
Lemma scan_slot c k e u t es : Nat.max 4 (2 * (k - 1)) <= c -> forall h r q, fits k t h q -> holds r q -> rg_cap r <= c -> (exists x, h !! u = Some x /\ (0 <= x)%Z) ->
  same (fun a b => a.1 = b.1 /\ a.2.1 = b.2.1 /\ (b.1 = false -> fits k t b.2.1 b.2.2 /\ holds a.2.2 b.2.2 /\ rg_cap a.2.2 <= c)) (bfs_scan_slot c e u t es h r) (bfs_scan e u t es h q).
Proof.
  intros Hm. induction es as [|i es IH]; intros h r q F H C U; cbn [bfs_scan_slot bfs_scan]; [cbn; auto|]. destruct (vget e i) as [[v cp]| |]; cbn [mbind res_bind]; [|exact I|exact I].
  destruct (0 <? cp)%Z; [|apply IH; assumption]. destruct (vget h v) as [hv| |] eqn:Ev; cbn [mbind res_bind]; [|exact I|exact I]. apply vget_inv in Ev.
  destruct (Z.eqb_spec hv (-1)) as [->|Hv]; [|apply IH; assumption]. destruct U as (hu & Eu & Hu). rewrite (vget_ok h u hu Eu). cbn [mbind res_bind].
  destruct (iadd i32 hu 1) as [d| |] eqn:Ed; cbn [mbind res_bind]; [|exact I|exact I]. apply chk_inv in Ed as [-> _].
  rewrite (vset_ok h v) by (apply lookup_lt_Some in Ev; exact Ev). cbn [mbind res_bind]. destruct (Nat.eqb_spec v t) as [->|Ht]; [cbn; split_and!; [reflexivity|reflexivity|discriminate]|].
  destruct F as (F1 & F2 & F3). pose proof (unseen_set t h 0 v (hu + 1)%Z Ev Ht ltac:(lia)) as HU. destruct (push_slot_ok c k r q v H C ltac:(lia) Hm) as (r' & -> & H' & C'). cbn [mbind res_bind].
  assert (forall w, (exists x, h !! w = Some x /\ (0 <= x)%Z) -> exists x, <[v:=(hu + 1)%Z]> h !! w = Some x /\ (0 <= x)%Z) as Keep.
  { intros w (x & Ex & Hx). assert (w <> v) by (intros ->; rewrite Ev in Ex; injection Ex as <-; lia). exists x. rewrite list_lookup_insert_ne by congruence. auto. }
  apply IH; [split_and!|exact H'|exact C'|].
  - apply Forall_insert; [exact F1|lia].
  - apply Forall_app. split; [|apply Forall_singleton; exists (hu + 1)%Z; rewrite list_lookup_insert by (apply lookup_lt_Some in Ev; exact Ev); split; [reflexivity|lia]].
    apply (Forall_impl _ _ _ F2). exact Keep.
  - rewrite app_length. cbn. lia.
  - apply Keep. eauto.
Qed.
(** The two queues are the same; room for the vertices not seen yet, or the queue is the start. *)
Definition runs (c k t : nat) (s : list Z * ring nat) (s' : list Z * list nat) : Prop :=
  s.1 = s'.1 /\ holds s.2 s'.2 /\ rg_cap s.2 <= c /\ Forall (fun x => (-1 <= x)%Z) s'.1 /\ Forall (fun u => exists x, s'.1 !! u = Some x /\ (0 <= x)%Z) s'.2 /\ length (tail s'.2) + unseen 0 t s'.1 <= k.
Lemma step_slot c k e g t s s' : Nat.max 4 (2 * (k - 1)) <= c -> runs c k t s s' -> same (rel_sum (runs c k t)) (bfs_step_slot c e g t s) (bfs_step e g t s').
Proof.
  intros Hm. destruct s as [h r], s' as [h' q]. intros (E & H & C & F1 & F2 & F3). cbn [fst snd] in *. subst h'. unfold bfs_step_slot, bfs_step. destruct (pop_ok r q H) as (r' & -> & H' & _ & C'). cbn [mbind res_bind].
  destruct q as [|u q]; cbn [head tail] in *; [reflexivity|]. apply Forall_cons in F2 as [U F2]. apply same_bind_eq. intros es. eapply same_bind.
  - apply (scan_slot c k e u t es Hm h r' q); [split_and!; [exact F1|exact F2|exact F3]|exact H'|lia|exact U].
  - intros [b1 [h1 r1]] [b2 [h2 q2]] (E1 & E2 & K). cbn [fst snd] in *. subst b2 h2. destruct b1; [reflexivity|]. destruct (K eq_refl) as ((G1 & G2 & G3) & K2 & K3). cbn. split_and!; cbn [fst snd]; [reflexivity|exact K2|exact K3|exact G1|exact G2|]. destruct q2; cbn in *; lia.
Qed.
Lemma bfs_slots c e g h s t : Nat.max 4 (2 * (bfs_need (length h) s t - 1)) <= c -> bfs_slot c e g h s t = bfs e g h s t.
Proof.
  intros Hc. unfold bfs_slot, bfs. destruct (decide (s < length h)) as [Hs|Hs].
  2:{ rewrite vset_panic by (rewrite replicate_length; lia). reflexivity. }
  rewrite vset_ok by (rewrite replicate_length; exact Hs). cbn [mbind res_bind].
  destruct (push_slot_ok c 1 ring_new [] s new_holds ltac:(cbn; lia) ltac:(cbn; lia) ltac:(lia)) as (r & -> & H & C). cbn [mbind res_bind app] in *.
  apply same_eq. apply (same_loop (runs c (bfs_need (length h) s t) t)); [intros x y Hxy; apply step_slot; assumption|]. split_and!; cbn [fst snd].
  - reflexivity.
  - exact H.
  - exact C.
  - apply Forall_insert; [|lia]. apply Forall_replicate. lia.
  - apply Forall_singleton. exists 0%Z. rewrite list_lookup_insert by (rewrite replicate_length; exact Hs). split; [reflexivity|lia].
  - rewrite unseen_start by exact Hs. cbn [tail length]. unfold bfs_need. destruct (decide _); lia.
Qed.
Lemma flow_slots c T d s t : Nat.max 4 (2 * (bfs_need (length (dn_h d)) s t - 1)) <= c -> max_flow_slot c T d s t = dn_max_flow T d s t.
Proof.
  intros Hk. apply same_eq. unfold max_flow_slot, dn_max_flow. apply same_bind_eq. intros _. apply same_bind_eq. intros _. eapply same_bind; [apply (same_loop (fun x y => x = y /\ length (dn_h x.2) = length (dn_h d)))|intros a b ->; apply same_refl].
  - intros [ans x] ? [<- L]. cbn [snd] in L. unfold flow_step_slot, flow_step. rewrite bfs_slots by (rewrite L; exact Hk). destruct (bfs _ _ _ _ _) as [[b h]| |] eqn:Eb; cbn [mbind res_bind]; [|exact I|exact I]. apply bfs_len in Eb.
    destruct b; [|reflexivity]. apply same_bind_eq. intros [a [e cur]]. apply same_bind_eq. intros ans'. cbn. split; [reflexivity|congruence].
  - auto.
Qed.

(** The number of slots is 0 or a power of two from 4 on. *)
Definition shape (r : ring nat) : Prop := rg_cap r = 0 \/ exists j, rg_cap r = 2 ^ (2 + j).
Lemma push_shape c r l x r' : holds r l -> shape r -> push_slot c r x = Ok r' -> holds r' (l ++ [x]) /\ shape r' /\ rg_cap r' <= c.
Proof.
  intros H S E. destruct (push_ok r l x H) as (r2 & E2 & H2 & _ & C). unfold push_slot in E. rewrite E2 in E. cbn [mbind res_bind] in E. destruct (Nat.leb_spec (rg_cap r2) c); cbn [rassert mbind res_bind] in E; [|discriminate]. injection E as <-.
  split; [exact H2|]. split; [|assumption]. unfold shape in *. destruct C as [->|[_ ->]]; [exact S|]. right. destruct S as [->|[j ->]]; [exists 0; reflexivity|]. exists (Datatypes.S j). unfold new_cap.
  replace (2 + Datatypes.S j) with (Datatypes.S (2 + j)) by lia. rewrite Nat.pow_succ_r'. assert (2 ^ 2 <= 2 ^ (2 + j)) by (apply Nat.pow_le_mono_r; lia). change (2 ^ 2) with 4 in *. set (p := 2 ^ (2 + j)) in *. clearbody p. lia.
Qed.
Lemma shape_big r i : shape r -> 2 ^ i < rg_cap r -> 2 ^ S i <= rg_cap r.
Proof. intros [->|[j ->]] H; [lia|]. apply Nat.pow_lt_mono_r_iff in H; [|lia]. apply Nat.pow_le_mono_r; lia. Qed.
Lemma star_slot c i m l : c < 2 ^ S i -> forall j h r q, j + l = m -> length h = S (S m) -> h !! 0 = Some 0%Z -> (forall v, j < v <= m -> h !! v = Some (-1)%Z) -> holds r q -> shape r -> rg_cap r <= c -> 2 ^ i < length q + l ->
  bfs_scan_slot c (star_e m) 0 (S m) (seq j l) h r = Panic.
Proof.
  intros Hc. induction l as [|l IH]; intros j h r q Hj Hh H0 Hv H Sh Cr Hl.
  - pose proof (h_cap _ _ H). pose proof (shape_big r i Sh ltac:(lia)). lia.
  - cbn [seq bfs_scan_slot]. rewrite (vget_ok _ _ _ (star_get m j ltac:(lia))). cbn [mbind res_bind]. change (0 <? 1)%Z with true. cbn iota. rewrite (vget_ok _ _ _ (Hv (S j) ltac:(lia))). cbn [mbind res_bind]. change (-1 =? -1)%Z with true. cbn iota.
    rewrite (vget_ok _ _ _ H0). cbn [mbind res_bind]. change (iadd i32 0 1) with (Ok 1%Z). cbn [mbind res_bind]. rewrite vset_ok by lia. cbn [mbind res_bind]. rewrite (proj2 (Nat.eqb_neq (S j) (S m))) by lia.
    destruct (push_slot c r (S j)) as [r'| |] eqn:E; cbn [mbind res_bind]; [|reflexivity|].
    + apply (push_shape c r q) in E as (H' & Sh' & C'); [|assumption|assumption]. apply (IH (S j) _ r' (q ++ [S j])); [lia|rewrite insert_length; exact Hh|rewrite list_lookup_insert_ne by lia; exact H0| |exact H'|exact Sh'|exact C'|rewrite app_length; cbn; lia].
      intros v Hv'. rewrite list_lookup_insert_ne by lia. apply Hv. lia.
    + exfalso. destruct (push_ok r q (S j) H) as (r2 & E2 & _). unfold push_slot in E. rewrite E2 in E. cbn [mbind res_bind] in E. destruct (rg_cap r2 <=? c); discriminate.
Qed.
Lemma star_slots i c : 2 <= i -> c < 2 ^ S i -> let m := 2 ^ i + 1 in bfs_slot c (star_e m) (star_g m) (replicate (m + 2) (-1)%Z) 0 (m + 1) = Panic.
Proof.
  intros Hi Hc m. unfold bfs_slot. rewrite replicate_length. rewrite vset_ok by (rewrite replicate_length; lia). cbn [mbind res_bind].
  destruct (push_slot c ring_new 0) as [r| |] eqn:E; cbn [mbind res_bind]; [|reflexivity|].
  2:{ exfalso. destruct (push_ok (@ring_new nat) [] 0 new_holds) as (r2 & E2 & _). unfold push_slot in E. rewrite E2 in E. cbn [mbind res_bind] in E. destruct (rg_cap r2 <=? c); discriminate. }
  apply (push_shape c ring_new []) in E as (H & Sh & C); [|exact new_holds|left; reflexivity]. cbn [app] in H.
  assert (bfs_step_slot c (star_e m) (star_g m) (m + 1) (<[0:=0%Z]> (replicate (m + 2) (-1)%Z), r) = Panic) as E; [|cbn [rloop]; rewrite E; reflexivity].
  unfold bfs_step_slot. destruct (pop_ok r [0] H) as (r' & -> & H' & _ & C'). cbn [mbind res_bind head tail] in *. change (vget (star_g m) 0) with (Ok (seq 0 m)). cbn [mbind res_bind].
  replace (m + 1) with (S m) by lia. rewrite (star_slot c i m m Hc 0 _ r' []); [reflexivity|lia|rewrite insert_length, replicate_length; lia| | |exact H'| |lia|cbn; lia].
  - rewrite list_lookup_insert by (rewrite replicate_length; lia). reflexivity.
  - intros v Hv. rewrite list_lookup_insert_ne by lia. apply lookup_replicate_2. lia.
  - unfold shape in *. rewrite C'. exact Sh.
Qed.
