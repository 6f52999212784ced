From Verif Require Import Prelude IntModel UtilModel UtilProof DinicModel AhoModel RingModel RingSpec.

Section ring.
  Context {A : Type}.
  Implicit Types (r : ring A) (l : list A).
  (** The queue l is stored in r. *)
  Record holds r l : Prop := {
    h_len : rg_len r = length l;
    h_cap : length l <= rg_cap r;
    h_head : rg_head r < rg_cap r \/ rg_cap r = 0 /\ rg_head r = 0;
    h_slot : forall i x, l !! i = Some x -> rg_buf r !! phys r i = Some (Some x) }.
  Lemma move_ok (buf : list (option A)) src dst k : src + k <= length buf -> dst + k <= length buf -> exists buf', buf_move buf src dst k = Ok buf' /\ length buf' = length buf /\
    (forall i, i < k -> buf' !! (dst + i) = buf !! (src + i)) /\ (forall i, ~ (src <= i < src + k) -> ~ (dst <= i < dst + k) -> buf' !! i = buf !! i).
  Proof.
    intros H1 H2. unfold buf_move. rewrite (proj2 (Nat.leb_le _ _) H1), (proj2 (Nat.leb_le _ _) H2). cbn [rassert mbind res_bind].
    set (b1 := take src buf ++ replicate k None ++ drop (src + k) buf). assert (L1 : length b1 = length buf) by (unfold b1; rewrite !app_length, take_length, replicate_length, drop_length; lia).
    assert (Lt : length (take k (drop src buf)) = k) by (rewrite take_length, drop_length; lia).
    eexists. split; [reflexivity|]. split; [|split].
    - rewrite !app_length, take_length, drop_length, L1, Lt. lia.
    - intros i Hi. rewrite lookup_app_r by (rewrite take_length, L1; lia). rewrite take_length, L1. replace (dst + i - dst `min` length buf) with i by lia. rewrite lookup_app_l by (rewrite Lt; exact Hi).
      rewrite lookup_take by exact Hi. rewrite lookup_drop. reflexivity.
    - intros i N1 N2. assert (E : b1 !! i = buf !! i).
      { unfold b1. destruct (decide (i < src)) as [Hs|Hs]; [rewrite lookup_app_l by (rewrite take_length; lia); rewrite lookup_take by exact Hs; reflexivity|].
        rewrite lookup_app_r by (rewrite take_length; lia). rewrite take_length. rewrite lookup_app_r by (rewrite replicate_length; lia). rewrite replicate_length, lookup_drop. f_equal. lia. }
      destruct (decide (i < dst)) as [Hs|Hs]; [rewrite lookup_app_l by (rewrite take_length; lia); rewrite lookup_take by exact Hs; exact E|].
      rewrite lookup_app_r by (rewrite take_length; lia). rewrite take_length. rewrite lookup_app_r by (rewrite Lt; lia). rewrite Lt, lookup_drop. rewrite <- E. f_equal. lia.
  Qed.
  Lemma wrap_lt i cap : i < cap -> wrap_index i cap = i.
  Proof. intros H. unfold wrap_index. destruct (Nat.leb_spec cap i); lia. Qed.
  Lemma wrap_ge i cap : cap <= i -> wrap_index i cap = i - cap.
  Proof. intros H. unfold wrap_index. destruct (Nat.leb_spec cap i); lia. Qed.
  Lemma new_cap_gt c : c < new_cap c /\ 2 * c <= new_cap c /\ 4 <= new_cap c.
  Proof. unfold new_cap. lia. Qed.
  Lemma buf_old (buf : list (option A)) k i o : buf !! i = Some (Some o) -> (buf ++ replicate k None) !! i = Some (Some o).
  Proof. intros H. apply lookup_app_l_Some. exact H. Qed.

  Lemma grow_ok r l : holds r l -> rg_len r = rg_cap r -> exists r', ring_grow r = Ok r' /\ holds r' l /\ rg_cap r' = new_cap (rg_cap r) /\ rg_cost r + rg_cap r <= rg_cost r' /\ 2 * rg_cost r' <= 2 * rg_cost r + 3 * rg_cap r.
  Proof.
    intros [HL HC HH HS] Hfull. destruct (new_cap_gt (rg_cap r)) as (G1 & G2 & G4). unfold ring_grow. rewrite (nsub_ok (rg_cap r) (rg_len r)) by lia. cbn [mbind res_bind]. unfold phys in HS.
    set (c := rg_cap r) in *. set (c' := new_cap c) in *. set (h := rg_head r) in *. set (b1 := rg_buf r ++ replicate (c' - c) None).
    assert (L1 : length b1 = c') by (unfold b1; rewrite app_length, replicate_length; change (length (rg_buf r)) with c; lia).
    assert (Hcl : c = length l) by lia.
    assert (HS1 : forall i x, l !! i = Some x -> b1 !! wrap_index (h + i) c = Some (Some x)) by (intros i x Hx; apply buf_old, HS; exact Hx).
    clearbody b1 h c'. clear HS. clearbody c.
    destruct (Nat.leb_spec h (c - rg_len r)) as [Hle|Hgt].
    - eexists. split; [reflexivity|]. assert (h = 0) by lia. split.
      + split; cbn [rg_len rg_head rg_buf]; unfold phys, rg_cap; cbn [rg_len rg_head rg_buf]; rewrite ?L1; [exact HL|lia|lia|]. intros i x Hx. pose proof (lookup_lt_Some _ _ _ Hx). rewrite wrap_lt by lia. specialize (HS1 i x Hx). rewrite wrap_lt in HS1 by lia. exact HS1.
      + unfold rg_cap. cbn [rg_buf rg_cost]. rewrite L1. lia.
    - destruct HH as [HH|HH]; [|lia]. rewrite (nsub_ok c h) by lia. cbn [mbind res_bind]. rewrite (nsub_ok (rg_len r) (c - h)) by lia. cbn [mbind res_bind]. replace (rg_len r - (c - h)) with h by lia.
      destruct (Nat.ltb_spec h (c - h)) as [Hs|Hs]; cbn [andb].
      + destruct (Nat.leb_spec h (c' - c)) as [Hs'|Hs']; [|lia]. destruct (Nat.leb_spec h c) as [Ha|Ha]; [|lia]. cbn [rassert mbind res_bind].
        destruct (move_ok b1 0 c h) as (b2 & -> & L2 & M1 & M2); [lia|lia|]. cbn [mbind res_bind]. eexists. split; [reflexivity|]. split.
        * split; cbn [rg_len rg_head rg_buf]; unfold phys, rg_cap; cbn [rg_len rg_head rg_buf]; rewrite ?L2, ?L1; [exact HL|lia|lia|]. intros i x Hx. pose proof (lookup_lt_Some _ _ _ Hx). rewrite wrap_lt by lia. specialize (HS1 i x Hx).
          destruct (decide (h + i < c)) as [Hc|Hc].
          -- rewrite wrap_lt in HS1 by exact Hc. rewrite M2 by lia. exact HS1.
          -- rewrite wrap_ge in HS1 by lia. replace (h + i) with (c + (h + i - c)) by lia. rewrite M1 by lia. cbn [Nat.add]. exact HS1.
        * unfold rg_cap. cbn [rg_buf rg_cost]. rewrite L2, L1. lia.
      + rewrite (nsub_ok c' (c - h)) by lia. cbn [mbind res_bind]. destruct (move_ok b1 h (c' - (c - h)) (c - h)) as (b2 & -> & L2 & M1 & M2); [lia|lia|]. cbn [mbind res_bind]. eexists. split; [reflexivity|]. split.
        * split; cbn [rg_len rg_head rg_buf]; unfold phys, rg_cap; cbn [rg_len rg_head rg_buf]; rewrite ?L2, ?L1; [exact HL|lia|lia|]. intros i x Hx. pose proof (lookup_lt_Some _ _ _ Hx). specialize (HS1 i x Hx).
          destruct (decide (h + i < c)) as [Hc|Hc].
          -- rewrite wrap_lt in HS1 by exact Hc. rewrite wrap_lt by lia. rewrite M1 by lia. exact HS1.
          -- rewrite wrap_ge in HS1 by lia. rewrite wrap_ge by lia. replace (c' - (c - h) + i - c') with (h + i - c) by lia. rewrite M2 by lia. exact HS1.
        * unfold rg_cap. cbn [rg_buf rg_cost]. rewrite L2, L1. lia.
  Qed.
  Lemma phys_lt r i : rg_head r < rg_cap r -> i <= rg_cap r -> phys r i < rg_cap r.
  Proof. intros H1 H2. unfold phys, wrap_index. destruct (Nat.leb_spec (rg_cap r) (rg_head r + i)); lia. Qed.
  Lemma phys_inj r i j : rg_head r < rg_cap r -> i < rg_cap r -> j < rg_cap r -> phys r i = phys r j -> i = j.
  Proof. intros H1 H2 H3. unfold phys, wrap_index. destruct (Nat.leb_spec (rg_cap r) (rg_head r + i)); destruct (Nat.leb_spec (rg_cap r) (rg_head r + j)); lia. Qed.
  Lemma new_holds : holds ring_new [].
  Proof. split; cbn; try lia. intros i x Hx. discriminate. Qed.
  (** Cost and capacity after p pushes. *)
  Definition cheap r (p : nat) : Prop := rg_len r <= p /\ 2 * rg_cost r <= 3 * (rg_cap r - 4) /\ (rg_cap r = 0 \/ 4 <= rg_cap r /\ (rg_cap r = 4 \/ rg_cap r < 2 * p)).
  Lemma push_slots r l x : holds r l -> rg_len r < rg_cap r -> exists r', (buf ← vset (rg_buf r) (phys r (rg_len r)) (Some x); Ok (Ring buf (rg_head r) (S (rg_len r)) (rg_cost r))) = Ok r' /\
    holds r' (l ++ [x]) /\ rg_cap r' = rg_cap r /\ rg_cost r' = rg_cost r /\ rg_len r' = S (rg_len r).
  Proof.
    intros [HL HC HH HS] Hlt. destruct HH as [HH|HH]; [|lia]. pose proof (phys_lt r (rg_len r) HH ltac:(lia)) as Hp. rewrite vset_ok by exact Hp. cbn [mbind res_bind]. eexists. split; [reflexivity|].
    set (r' := Ring _ _ _ _). assert (HC' : rg_cap r' = rg_cap r) by (unfold rg_cap; cbn [r' rg_buf]; apply insert_length).
    assert (HP : forall i, phys r' i = phys r i) by (intros i; unfold phys; rewrite HC'; reflexivity).
    split; [|auto]. split; rewrite ?HC', ?app_length; cbn [length].
    - cbn [r' rg_len]. lia.
    - lia.
    - cbn [r' rg_head]. lia.
    - intros i y Hy. rewrite HP. cbn [r' rg_buf]. pose proof (lookup_lt_Some _ _ _ Hy) as Hi. rewrite app_length in Hi. cbn in Hi.
      destruct (decide (i = length l)) as [->|Hne].
      + rewrite lookup_app_r, Nat.sub_diag in Hy by lia. injection Hy as <-. rewrite <- HL. rewrite list_lookup_insert by exact Hp. reflexivity.
      + rewrite lookup_app_l in Hy by lia. rewrite list_lookup_insert_ne; [apply HS; exact Hy|]. intros F. apply phys_inj in F; lia.
  Qed.
  Lemma push_ok r l x : holds r l -> exists r', push_back r x = Ok r' /\ holds r' (l ++ [x]) /\ (forall p, cheap r p -> cheap r' (S p)) /\ (rg_cap r' = rg_cap r \/ rg_len r' = S (rg_cap r) /\ rg_cap r' = new_cap (rg_cap r)).
  Proof.
    intros H. pose proof (h_len _ _ H) as HL. pose proof (h_cap _ _ H) as HC. unfold push_back. destruct (Nat.eqb_spec (rg_len r) (rg_cap r)) as [E|E].
    - destruct (grow_ok r l H E) as (r1 & -> & H1 & C1 & K0 & K1). cbn [mbind res_bind]. destruct (new_cap_gt (rg_cap r)) as (G1 & G2 & G4). pose proof (h_len _ _ H1) as HL1. destruct (push_slots r1 l x H1) as (r' & E' & H' & C' & K' & L'); [lia|].
      pose proof (h_len _ _ H').
      exists r'. split; [exact E'|]. split; [exact H'|]. split; [|right; lia]. intros p (P1 & P2 & P3). unfold cheap. rewrite L', K', C', C1. unfold new_cap in *. lia.
    - cbn [mbind res_bind]. destruct (push_slots r l x H) as (r' & E' & H' & C' & K' & L'); [lia|]. exists r'. split; [exact E'|]. split; [exact H'|]. split; [|left; exact C']. intros p (P1 & P2 & P3). unfold cheap. rewrite L', K', C'. lia.
  Qed.
  Lemma pop_ok r l : holds r l -> exists r', pop_front r = Ok (head l, r') /\ holds r' (tail l) /\ (forall p, cheap r p -> cheap r' p) /\ rg_cap r' = rg_cap r.
  Proof.
    intros H. pose proof H as [HL HC HH HS]. unfold pop_front. destruct l as [|x l]; cbn [head tail length] in *.
    - rewrite HL. cbn. exists r. split; [reflexivity|auto].
    - destruct (Nat.eqb_spec (rg_len r) 0); [lia|]. destruct HH as [HH|HH]; [|lia]. assert (E0 : phys r 0 = rg_head r) by (unfold phys; rewrite Nat.add_0_r; apply wrap_lt; exact HH).
      pose proof (HS 0 x eq_refl) as H0. rewrite E0 in H0. rewrite (vget_ok _ _ _ H0). cbn [mbind res_bind runwrap]. rewrite vset_ok by exact HH. cbn [mbind res_bind]. eexists. split; [reflexivity|].
      assert (HC' : length (<[rg_head r:=None]> (rg_buf r)) = rg_cap r) by (rewrite insert_length; reflexivity). split.
      + split; cbn [rg_len rg_head rg_buf]; unfold rg_cap; cbn [rg_len rg_head rg_buf]; rewrite ?HC'.
        * lia.
        * lia.
        * left. apply phys_lt; lia.
        * intros i y Hy. pose proof (lookup_lt_Some _ _ _ Hy) as Hi. unfold phys at 1. cbn [rg_head]. unfold rg_cap at 1. cbn [rg_buf]. rewrite HC'. specialize (HS (S i) y Hy).
          assert (Ep : wrap_index (phys r 1 + i) (rg_cap r) = phys r (S i)).
          { unfold phys, wrap_index. destruct (Nat.leb_spec (rg_cap r) (rg_head r + 1)); destruct (Nat.leb_spec (rg_cap r) (rg_head r + S i)); try (destruct (Nat.leb_spec (rg_cap r) (rg_head r + 1 - rg_cap r + i)); lia); destruct (Nat.leb_spec (rg_cap r) (rg_head r + 1 + i)); lia. }
          rewrite Ep. rewrite list_lookup_insert_ne; [exact HS|]. rewrite <- E0. intros F. apply phys_inj in F; lia.
      + split; [|exact HC']. intros p (P1 & P2 & P3). unfold cheap. cbn [rg_len rg_cost]. unfold rg_cap. cbn [rg_buf]. rewrite HC'. lia.
  Qed.

  (** Histories. *)
  Lemma pushed_app (a b : list (q_op A)) : pushed (a ++ b) = pushed a ++ pushed b.
  Proof. unfold pushed. apply omap_app. Qed.
  Lemma pops_app (a b : list (q_op A)) : pops (a ++ b) = pops a + pops b.
  Proof. unfold pops. rewrite omap_app, app_length. reflexivity. Qed.
  Lemma popped_app (a b : list (option A)) : popped (a ++ b) = popped a ++ popped b.
  Proof. unfold popped. apply omap_app. Qed.
  Lemma run_ok (ops : list (q_op A)) : exists r outs l, ring_run ops = Ok (r, outs) /\ holds r l /\ cheap r (length (pushed ops)) /\ pushed ops = popped outs ++ l /\ fifo ops outs.
  Proof.
    induction ops as [|o ops IH] using rev_ind.
    - exists ring_new, [], []. split; [reflexivity|]. split; [exact new_holds|]. split; [unfold cheap; cbn; lia|]. split; [reflexivity|]. split; [reflexivity|]. intros ops1 ops2 E. destruct ops1; discriminate.
    - destruct IH as (r & outs & l & E & H & C & P & (F1 & F2)). unfold ring_run in *. rewrite rfor_app, E. cbn [mbind res_bind rfor]. rewrite pushed_app. destruct o as [x|]; cbn [ring_step fst snd].
      + destruct (push_ok r l x H) as (r' & -> & H' & C' & _). cbn [mbind res_bind]. exists r', outs, (l ++ [x]). split; [reflexivity|]. split; [exact H'|]. change (pushed [QPush x]) with [x].
        split; [rewrite app_length, Nat.add_1_r; apply C'; exact C|]. split; [rewrite P, app_assoc; reflexivity|]. split; [rewrite pops_app; change (pops [QPush x]) with 0; lia|].
        intros ops1 ops2 Eo. destruct ops2 as [|o ops2 _] using rev_ind; [apply app_inj_tail in Eo as [_ Eo]; discriminate|]. rewrite app_comm_cons, app_assoc in Eo. apply app_inj_tail in Eo as [Eo _]. exact (F2 ops1 ops2 Eo).
      + destruct (pop_ok r l H) as (r' & -> & H' & C' & _). cbn [mbind res_bind fst snd]. exists r', (outs ++ [head l]), (tail l). split; [reflexivity|]. split; [exact H'|]. change (pushed [QPop]) with (@nil A). rewrite app_nil_r.
        split; [apply C'; exact C|]. split; [rewrite popped_app, P, <- app_assoc; f_equal; destruct l; reflexivity|]. split; [rewrite pops_app, app_length; change (pops [QPop]) with 1; cbn; lia|].
        intros ops1 ops2 Eo. destruct ops2 as [|o ops2 _] using rev_ind.
        * apply app_inj_tail in Eo as [<- _]. rewrite <- F1. rewrite take_app, lookup_app_r, Nat.sub_diag by lia. cbn. f_equal. rewrite P. rewrite lookup_app_r by lia. rewrite Nat.sub_diag. destruct l; reflexivity.
        * rewrite app_comm_cons, app_assoc in Eo. apply app_inj_tail in Eo as [Eo _]. pose proof (F2 ops1 ops2 Eo) as F. pose proof (lookup_lt_Some _ _ _ F). rewrite lookup_app_l by assumption. rewrite take_app_le by lia. exact F.
  Qed.
  Lemma run_cap (ops : list (q_op A)) m : (forall ops1 ops2 r1 o1, ops = ops1 ++ ops2 -> ring_run ops1 = Ok (r1, o1) -> rg_len r1 <= m) -> forall r outs, ring_run ops = Ok (r, outs) -> rg_cap r <= Nat.max 4 (2 * m).
  Proof.
    induction ops as [|o ops IH] using rev_ind; intros Hm r outs E.
    - injection E as <- <-. cbn. lia.
    - destruct (run_ok ops) as (r0 & o0 & l & E0 & H0 & _). specialize (IH ltac:(intros ops1 ops2 r1 o1 ->; apply (Hm ops1 (ops2 ++ [o])); rewrite <- app_assoc; reflexivity) r0 o0 E0). pose proof (Hm (ops ++ [o]) [] r outs ltac:(rewrite app_nil_r; reflexivity) E) as Hl.
      unfold ring_run in E, E0. rewrite rfor_app, E0 in E. cbn [mbind res_bind rfor] in E. destruct o as [x|]; cbn [ring_step fst snd] in E.
      + destruct (push_ok r0 l x H0) as (r' & E' & _ & _ & C). rewrite E' in E. cbn [mbind res_bind] in E. injection E as -> <-. unfold new_cap in C. lia.
      + destruct (pop_ok r0 l H0) as (r' & E' & _ & _ & C). rewrite E' in E. cbn [mbind res_bind fst snd] in E. injection E as -> <-. lia.
  Qed.
End ring.

(** Two computations with related results. *)
Definition same {A B} (R : A -> B -> Prop) (m : res A) (k : res B) : Prop :=
  match m, k with Ok a, Ok b => R a b | Panic, Panic => True | Diverge, Diverge => True | _, _ => False end.
Lemma same_refl {A} (m : res A) : same eq m m.
Proof. destruct m; cbn; auto. Qed.
Lemma same_eq {A} (m k : res A) : same eq m k -> m = k.
Proof. destruct m, k; cbn; try tauto. intros ->. reflexivity. Qed.
Lemma same_bind {A B C D} (R : A -> B -> Prop) (Q : C -> D -> Prop) m k f h : same R m k -> (forall a b, R a b -> same Q (f a) (h b)) -> same Q (m ≫= f) (k ≫= h).
Proof. destruct m, k; cbn; try tauto. intros H1 H2. apply H2. exact H1. Qed.
Lemma same_bind_eq {A C D} (Q : C -> D -> Prop) (m : res A) f h : (forall a, same Q (f a) (h a)) -> same Q (m ≫= f) (m ≫= h).
Proof. intros H. destruct m; cbn; auto. Qed.
Lemma same_for {X S S'} (R : S -> S' -> Prop) (xs : list X) f h : (forall x s s', R s s' -> same R (f x s) (h x s')) -> forall s s', R s s' -> same R (rfor xs f s) (rfor xs h s').
Proof. intros H. induction xs as [|x xs IH]; intros s s' HR; cbn [rfor]; [exact HR|]. eapply same_bind; [apply H; exact HR|]. intros a b Hab. apply IH. exact Hab. Qed.
Definition rel_sum {S S' T} (R : S -> S' -> Prop) (a : S + T) (b : S' + T) : Prop := match a, b with inl a, inl b => R a b | inr a, inr b => a = b | _, _ => False end.
Lemma same_loop {S S' T} (R : S -> S' -> Prop) (f : S -> res (S + T)) h : (forall s s', R s s' -> same (rel_sum R) (f s) (h s')) -> forall k s s', R s s' -> same eq (rloop k f s) (rloop k h s').
Proof.
  intros H. induction k as [|k IH]; intros s s' HR; cbn [rloop]; [exact I|]. eapply same_bind; [apply H; exact HR|]. intros [a|a] [b|b] Hab; cbn in Hab; [apply IH; exact Hab|destruct Hab|destruct Hab|exact Hab].
Qed.
Definition hq {X} (s : X * ring nat) (s' : X * list nat) : Prop := s.1 = s'.1 /\ holds s.2 s'.2.
Lemma scan_same e u t es : forall h r l, holds r l -> same (fun a b => a.1 = b.1 /\ hq a.2 b.2) (bfs_scan_ring e u t es h r) (bfs_scan e u t es h l).
Proof.
  induction es as [|i es IH]; intros h r l H; cbn [bfs_scan_ring bfs_scan]; [cbn; unfold hq; auto|]. apply same_bind_eq. intros [v c]. destruct (0 <? c)%Z; [|apply IH; exact H]. apply same_bind_eq. intros hv. destruct (hv =? -1)%Z; [|apply IH; exact H].
  apply same_bind_eq. intros hu. apply same_bind_eq. intros d. apply same_bind_eq. intros h'. destruct (v =? t); [cbn; unfold hq; auto|].
  destruct (push_ok r l v H) as (r' & -> & H' & _). cbn [mbind res_bind]. apply IH. exact H'.
Qed.
Lemma bfs_same e g h s t : bfs_ring e g h s t = bfs e g h s t.
Proof.
  apply same_eq. unfold bfs_ring, bfs. apply same_bind_eq. intros h'. destruct (push_ok ring_new [] s new_holds) as (r & -> & H & _). cbn [mbind res_bind app] in *.
  apply (same_loop hq); [|split; [reflexivity|exact H]]. clear. intros [h r] [h' l] [E H]. cbn [fst snd] in E, H. subst h'. unfold bfs_step_ring, bfs_step. destruct (pop_ok r l H) as (r' & -> & H' & _). cbn [mbind res_bind].
  destruct l as [|u l]; cbn [head tail] in *; [reflexivity|]. apply same_bind_eq. intros es. eapply same_bind; [apply scan_same; exact H'|]. intros [b [h1 q1]] [b' [h2 q2]] [E1 [E2 E3]]. cbn in E1, E2, E3. subst. cbn [fst snd].
  destruct b'; cbn; [reflexivity|]. split; [reflexivity|exact E3].
Qed.
Lemma flow_same T d s t : max_flow_ring T d s t = dn_max_flow T d s t.
Proof.
  apply same_eq. unfold max_flow_ring, dn_max_flow. apply same_bind_eq. intros _. apply same_bind_eq. intros _. eapply same_bind; [apply (same_loop eq)|intros a b ->; apply same_refl].
  - intros [ans x] ? <-. unfold flow_step_ring, flow_step. rewrite bfs_same. destruct (bfs _ _ _ _ _) as [[b h]| |]; cbn; [|exact I|exact I]. destruct b; [|reflexivity].
    apply same_bind_eq. intros [a [e cur]]. apply same_bind_eq. intros ans'. reflexivity.
  - reflexivity.
Qed.
Lemma build_same N fuel a : build_fuel_ring N fuel a = build_fuel N fuel a.
Proof.
  apply same_eq. unfold build_fuel_ring, build_fuel. eapply (same_bind holds).
  - apply same_for; [|exact new_holds]. intros i r l H. apply same_bind_eq. intros x. apply same_bind_eq. intros v. destruct (negb (v =? 0)); [|exact H]. destruct (push_ok r l v H) as (r' & -> & H' & _). exact H'.
  - intros r l H. eapply same_bind; [apply (same_loop hq); [|split; [reflexivity|exact H]]|intros x y ->; apply same_refl].
    clear. intros [h r] [h' l] [E H]. cbn [fst snd] in E, H. subst h'. unfold build_step_ring, build_step. destruct (pop_ok r l H) as (r' & -> & H' & _). cbn [mbind res_bind]. destruct l as [|u l]; cbn [head tail] in *; [reflexivity|].
    eapply same_bind; [apply (same_for hq); [|split; [reflexivity|exact H']]|intros x y Hxy; exact Hxy].
    clear. intros i [h r] [h' l] [E H]. cbn [fst snd] in E, H. subst h'. unfold build_edge_ring, build_edge. do 4 (apply same_bind_eq; intros ?). destruct (_ =? 0).
    + do 2 (apply same_bind_eq; intros ?). split; [reflexivity|exact H].
    + do 5 (apply same_bind_eq; intros ?). destruct (push_ok r l a2 H) as (r' & -> & H' & _). cbn [mbind res_bind]. split; [reflexivity|exact H'].
Qed.
