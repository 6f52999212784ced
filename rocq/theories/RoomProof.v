From Verif Require Import Prelude IntModel DinicModel AhoSpec AhoModel AhoStr AhoTrie AhoBuild AhoProof AhoProps RingProof RoomModel.

Lemma push_room_ok k q v : length q < k -> push_room k q v = Ok (q ++ [v]).
Proof. intros H. unfold push_room. rewrite (proj2 (Nat.ltb_lt _ _) H). reflexivity. Qed.
Lemma push_room_full k q v : k <= length q -> push_room k q v = Panic.
Proof. intros H. unfold push_room. rewrite (proj2 (Nat.ltb_ge _ _) H). reflexivity. Qed.
Lemma vget_inv {A} (l : list A) i x : vget l i = Ok x -> l !! i = Some x.
Proof. apply vget_ok_iff. Qed.
Lemma vset_inv {A} (l : list A) i x l' : vset l i x = Ok l' -> i < length l /\ l' = <[i:=x]> l.
Proof. unfold vset. destruct (decide (i < length l)); intros E; [injection E as <-; auto|discriminate]. Qed.

(** The entries -1 of h outside t. *)
Fixpoint unseen (i t : nat) (h : list Z) : nat :=
  match h with [] => 0 | x :: h => (if (x =? -1)%Z then if i =? t then 0 else 1 else 0) + unseen (S i) t h end.
Lemma unseen_set t : forall h i v d, h !! v = Some (-1)%Z -> i + v <> t -> d <> (-1)%Z -> S (unseen i t (<[v:=d]> h)) = unseen i t h.
Proof.
  induction h as [|x h IH]; intros i v d Hv Ht Hd; [discriminate|]. destruct v as [|v]; cbn in *.
  - injection Hv as ->. destruct (Z.eqb_spec d (-1)); [contradiction|]. cbn. destruct (Nat.eqb_spec i t); [lia|]. lia.
  - pose proof (IH (S i) v d Hv ltac:(lia) Hd) as H. unfold insert in *. destruct (x =? -1)%Z, (i =? t); cbn in *; lia.
Qed.
Lemma unseen_all t n : forall i, unseen i t (replicate n (-1)%Z) = if decide (i <= t < i + n) then n - 1 else n.
Proof.
  induction n as [|n IH]; intros i; cbn; [destruct (decide _); lia|]. rewrite IH. destruct (Nat.eqb_spec i t); destruct (decide _), (decide _); lia.
Qed.
Lemma unseen_start t n s : s < n -> unseen 0 t (<[s:=0%Z]> (replicate n (-1)%Z)) = if decide (t < n /\ t <> s) then n - 2 else n - 1.
Proof.
  intros Hs. assert (forall h i v d, i + v = t -> unseen i t (<[v:=d]> h) = unseen i t h) as Same.
  { induction h as [|x h IH]; intros i v d E; [reflexivity|]. destruct v as [|v]; cbn; [|rewrite IH by lia; reflexivity]. rewrite (proj2 (Nat.eqb_eq i t)) by lia. destruct (d =? -1)%Z, (x =? -1)%Z; reflexivity. }
  destruct (Nat.eq_dec s t) as [->|Hst].
  - rewrite Same by reflexivity. rewrite unseen_all. repeat destruct (decide _); lia.
  - pose proof (unseen_set t (replicate n (-1)%Z) 0 s 0%Z) as H. rewrite lookup_replicate_2 in H by exact Hs. specialize (H eq_refl Hst ltac:(lia)).
    rewrite unseen_all in H. repeat destruct (decide _); lia.
Qed.

(** Seen vertices have a distance; the queue holds seen vertices and has room for all others. *)
Definition fits (k t : nat) (h : list Z) (q : list nat) : Prop :=
  Forall (fun x => (-1 <= x)%Z) h /\ Forall (fun u => exists x, h !! u = Some x /\ (0 <= x)%Z) q /\ length q + unseen 0 t h <= k.
Lemma scan_room k e u t es : forall h q, fits k t h q -> (exists x, h !! u = Some x /\ (0 <= x)%Z) ->
  same (fun a b => a = b /\ (a.1 = false -> fits k t a.2.1 a.2.2)) (bfs_scan_room k e u t es h q) (bfs_scan e u t es h q).
Proof.
  induction es as [|i es IH]; intros h q F U; cbn [bfs_scan_room bfs_scan]; [cbn; auto|]. destruct (vget e i) as [[v c]| |]; cbn [mbind res_bind]; [|exact I|exact I].
  destruct (0 <? c)%Z; [|apply IH; assumption]. destruct (vget h v) as [hv| |] eqn:Ev; cbn [mbind res_bind]; [|exact I|exact I]. apply vget_inv in Ev.
  destruct (Z.eqb_spec hv (-1)) as [->|Hv]; [|apply IH; assumption]. destruct U as (hu & Eu & Hu). rewrite (vget_ok h u hu Eu). cbn [mbind res_bind].
  destruct (iadd i32 hu 1) as [d| |] eqn:Ed; cbn [mbind res_bind]; [|exact I|exact I]. apply chk_inv in Ed as [-> _].
  rewrite (vset_ok h v) by (apply lookup_lt_Some in Ev; exact Ev). cbn [mbind res_bind]. destruct (Nat.eqb_spec v t) as [->|Ht]; [cbn; split; [reflexivity|discriminate]|].
  destruct F as (F1 & F2 & F3). pose proof (unseen_set t h 0 v (hu + 1)%Z Ev Ht ltac:(lia)) as HU. rewrite push_room_ok by lia. cbn [mbind res_bind].
  assert (forall w, (exists x, h !! w = Some x /\ (0 <= x)%Z) -> exists x, <[v:=(hu + 1)%Z]> h !! w = Some x /\ (0 <= x)%Z) as Keep.
  { intros w (x & Ex & Hx). assert (w <> v) by (intros ->; rewrite Ev in Ex; injection Ex as <-; lia). exists x. rewrite list_lookup_insert_ne by congruence. auto. }
  apply IH; [split_and!|].
  - apply Forall_insert; [exact F1|lia].
  - apply Forall_app. split; [|apply Forall_singleton; exists (hu + 1)%Z; rewrite list_lookup_insert by (apply lookup_lt_Some in Ev; exact Ev); split; [reflexivity|lia]].
    apply (Forall_impl _ _ _ F2). exact Keep.
  - rewrite app_length. cbn. lia.
  - apply Keep. eauto.
Qed.
Lemma steps_room k e g t fuel : forall h q, fits k t h q -> rloop fuel (bfs_step_room k e g t) (h, q) = rloop fuel (bfs_step e g t) (h, q).
Proof.
  intros h q F. apply same_eq. apply (same_loop (fun s s' => s = s' /\ fits k t s.1 s.2)); [|auto]. clear. intros [h q] s' [<- F]. cbn [fst snd] in F. unfold bfs_step_room, bfs_step.
  destruct q as [|u q]; [reflexivity|]. apply same_bind_eq. intros es. destruct F as (F1 & F2 & F3). apply Forall_cons in F2 as [U F2]. cbn [length] in F3. eapply same_bind.
  - apply scan_room; [split_and!; [exact F1|exact F2|lia]|exact U].
  - intros [[] [h1 q1]] b [<- F]; cbn in *; [reflexivity|]. split; [reflexivity|]. apply F. reflexivity.
Qed.
(** How much room bfs needs. *)
Definition bfs_need (n s t : nat) : nat := if decide (t < n /\ t <> s) then Nat.max 1 (n - 2) else Nat.max 1 (n - 1).
Lemma bfs_fits k e g h s t : bfs_need (length h) s t <= k -> bfs_room k e g h s t = bfs e g h s t.
Proof.
  intros Hk. assert (1 <= k) by (unfold bfs_need in Hk; destruct (decide _); lia). unfold bfs_room, bfs. destruct (decide (s < length h)) as [Hs|Hs].
  2:{ rewrite vset_panic by (rewrite replicate_length; lia). reflexivity. }
  rewrite vset_ok by (rewrite replicate_length; exact Hs). cbn [mbind res_bind]. rewrite push_room_ok by (cbn; lia). cbn [mbind res_bind app].
  apply same_eq. generalize (S (length g)). intros fuel. cbn [rloop]. eapply (same_bind (rel_sum (fun s s' => s = s' /\ fits k t s.1 s.2))).
  - unfold bfs_step_room, bfs_step. apply same_bind_eq. intros es. eapply same_bind; [apply scan_room|].
    + split_and!; [|constructor|].
      * apply Forall_insert; [|lia]. apply Forall_replicate. lia.
      * rewrite unseen_start by exact Hs. cbn. unfold bfs_need in Hk. destruct (decide _); lia.
    + exists 0%Z. rewrite list_lookup_insert by (rewrite replicate_length; exact Hs). split; [reflexivity|lia].
    + intros [[] [h1 q1]] b [<- F]; cbn in *; [reflexivity|]. split; [reflexivity|]. apply F. reflexivity.
  - intros [[h1 q1]|a] [[h2 q2]|b] Hab; cbn in Hab; [|destruct Hab|destruct Hab|subst b; reflexivity].
    destruct Hab as [E F]. injection E as <- <-. rewrite (steps_room k e g t fuel h1 q1 F). apply same_refl.
Qed.

(** bfs keeps the length of h. *)
Lemma scan_len e u t es : forall h q b h' q', bfs_scan e u t es h q = Ok (b, (h', q')) -> length h' = length h.
Proof.
  induction es as [|i es IH]; intros h q b h' q' E; cbn [bfs_scan] in E; [injection E as <- <- <-; reflexivity|]. destruct (vget e i) as [[v c]| |]; cbn [mbind res_bind] in E; [|discriminate|discriminate].
  destruct (0 <? c)%Z; [|exact (IH _ _ _ _ _ E)]. destruct (vget h v) as [hv| |]; cbn [mbind res_bind] in E; [|discriminate|discriminate]. destruct (hv =? -1)%Z; [|exact (IH _ _ _ _ _ E)].
  destruct (vget h u) as [hu| |]; cbn [mbind res_bind] in E; [|discriminate|discriminate]. destruct (iadd i32 hu 1) as [d| |]; cbn [mbind res_bind] in E; [|discriminate|discriminate].
  destruct (vset h v d) as [h1| |] eqn:E1; cbn [mbind res_bind] in E; [|discriminate|discriminate]. apply vset_inv in E1 as [_ ->]. destruct (v =? t).
  - injection E as <- <- <-. apply insert_length.
  - apply IH in E. rewrite insert_length in E. exact E.
Qed.
Lemma bfs_len e g h s t b h' : bfs e g h s t = Ok (b, h') -> length h' = length h.
Proof.
  unfold bfs. destruct (vset _ s 0%Z) as [h1| |] eqn:E1; cbn [mbind res_bind]; [|discriminate|discriminate]. apply vset_inv in E1 as [_ E1]. assert (length h1 = length h) as <- by (rewrite E1, insert_length, replicate_length; reflexivity).
  clear E1. generalize (S (S (length g))). generalize [s]. intros q fuel. revert h1 q. induction fuel as [|fuel IH]; intros h1 q E; [discriminate|]. cbn [rloop] in E. destruct (bfs_step e g t (h1, q)) as [o| |] eqn:E3; cbn [mbind res_bind] in E; [|discriminate|discriminate]. unfold bfs_step in E3.
  destruct q as [|u q]; [injection E3 as <-; injection E as <- <-; reflexivity|]. destruct (vget g u) as [es| |]; cbn [mbind res_bind] in E3; [|discriminate|discriminate].
  destruct (bfs_scan e u t es h1 q) as [[b1 [h2 q2]]| |] eqn:E2; cbn [mbind res_bind] in E3; [|discriminate|discriminate]. apply scan_len in E2. destruct b1; cbn in E3; injection E3 as <-.
  - injection E as <- <-. exact E2.
  - apply IH in E. congruence.
Qed.
Lemma flow_fits k T d s t : bfs_need (length (dn_h d)) s t <= k -> max_flow_room k T d s t = dn_max_flow T d s t.
Proof.
  intros Hk. apply same_eq. unfold max_flow_room, dn_max_flow. apply same_bind_eq. intros _. apply same_bind_eq. intros _. eapply same_bind; [apply (same_loop (fun x y => x = y /\ length (dn_h x.2) = length (dn_h d)))|intros a b ->; apply same_refl].
  - intros [ans x] ? [<- L]. cbn [snd] in L. unfold flow_step_room, flow_step. rewrite bfs_fits by (rewrite L; exact Hk). destruct (bfs _ _ _ _ _) as [[b h]| |] eqn:Eb; cbn [mbind res_bind]; [|exact I|exact I]. apply bfs_len in Eb.
    destruct b; [|reflexivity]. apply same_bind_eq. intros [a [e cur]]. apply same_bind_eq. intros ans'. cbn. split; [reflexivity|congruence].
  - auto.
Qed.
Lemma add_len d u v c d' : dn_add_edge d u v c = Ok d' -> dn_h d' = dn_h d /\ dn_n d' = dn_n d.
Proof.
  unfold dn_add_edge. repeat (match goal with |- context [vget ?l ?i] => destruct (vget l i); cbn [mbind res_bind]; [|discriminate|discriminate] | |- context [vset ?l ?i ?x] => destruct (vset l i x); cbn [mbind res_bind]; [|discriminate|discriminate] end).
  intros E. injection E as <-. auto.
Qed.
Lemma flow_len T d s t x : dn_max_flow T d s t = Ok x -> length (dn_h x.1) = length (dn_h d) /\ dn_n x.1 = dn_n d.
Proof.
  unfold dn_max_flow. destruct (s <? dn_n d); cbn [rassert mbind res_bind]; [|discriminate]. destruct (t <? dn_n d); cbn [rassert mbind res_bind]; [|discriminate]. destruct (rloop _ _ _) as [y| |] eqn:E; cbn [mbind res_bind]; [|discriminate|discriminate].
  intros Ex. injection Ex as <-. cbn [fst]. revert E. generalize (S (S (dn_n d))), 0%Z. intros fuel. generalize d. induction fuel as [|fuel IH]; intros d0 z E; [discriminate|]. cbn [rloop] in E. destruct (flow_step T s t (z, d0)) as [o| |] eqn:E3; cbn [mbind res_bind] in E; [|discriminate|discriminate]. unfold flow_step in E3.
  destruct (bfs _ _ _ _ _) as [[b h]| |] eqn:Eb; cbn [mbind res_bind] in E3; [|discriminate|discriminate]. apply bfs_len in Eb. destruct b.
  - destruct (fdfs _ _ _ _ _ _ _ _ _) as [[a [e cur]]| |]; cbn [mbind res_bind] in E3; [|discriminate|discriminate]. destruct (iadd T z a) as [z'| |]; cbn [mbind res_bind] in E3; [|discriminate|discriminate]. injection E3 as <-. apply IH in E. cbn in E. destruct E as [E1 E2]. split; congruence.
  - injection E3 as <-. injection E as <-. cbn. split; [exact Eb|reflexivity].
Qed.

(** build: the loop only appends to the queue. *)
Lemma edge_room k u i st st' : build_edge u i st = Ok st' -> length st.2 <= length st'.2 /\ (length st'.2 <= k -> build_edge_room k u i st = Ok st').
Proof.
  destruct st as [nodes q]. unfold build_edge, build_edge_room. intros E.
  repeat (match type of E with
  | context [vget ?l ?i] => destruct (vget l i); cbn [mbind res_bind] in *; [|discriminate|discriminate]
  | context [vset ?l ?i ?x] => destruct (vset l i x); cbn [mbind res_bind] in *; [|discriminate|discriminate]
  | context [if ?b then _ else _] => destruct b end);
  injection E as <-; cbn [snd]; [auto|]. rewrite app_length. cbn. split; [lia|]. intros H. rewrite push_room_ok by lia. reflexivity.
Qed.
Lemma edges_room k u is : forall st st', rfor is (build_edge u) st = Ok st' -> length st.2 <= length st'.2 /\ (length st'.2 <= k -> rfor is (build_edge_room k u) st = Ok st').
Proof.
  induction is as [|i is IH]; intros st st' E; cbn [rfor] in *; [injection E as <-; auto|]. destruct (build_edge u i st) as [s1| |] eqn:E1; cbn [mbind res_bind] in E; [|discriminate|discriminate].
  apply (edge_room k) in E1 as [L1 R1]. apply IH in E as [L2 R2]. split; [lia|]. intros H. rewrite R1 by lia. cbn [mbind res_bind]. apply R2. exact H.
Qed.
Lemma loop_room N k fuel : forall st r, rloop fuel (build_step N) st = Ok r -> length st.2 < fuel /\ (fuel <= S k -> rloop fuel (build_step_room N k) st = Ok r).
Proof.
  induction fuel as [|fuel IH]; intros [nodes q] r E; [discriminate|]. cbn [rloop] in *. cbn [build_step build_step_room] in *. destruct q as [|u q]; cbn [mbind res_bind snd length] in *; [split; [lia|auto]|].
  destruct (rfor (range 0 N) (build_edge u) (nodes, q)) as [s1| |] eqn:E1; cbn [mbind res_bind] in E; [|discriminate|discriminate]. apply (edges_room k) in E1 as [L1 R1]. cbn [snd] in L1. apply IH in E as [L2 R2]. split; [lia|]. intros H. rewrite R1 by lia. cbn [mbind res_bind]. apply R2. lia.
Qed.
Lemma start_room k (nodes : list node) is : forall q q', rfor is (fun i q => x ← vget nodes 0; v ← vget (nd_next x) i; Ok (if negb (v =? 0) then q ++ [v] else q)) q = Ok q' ->
  length q <= length q' /\ (length q' <= k -> rfor is (fun i q => x ← vget nodes 0; v ← vget (nd_next x) i; if negb (v =? 0) then push_room k q v else Ok q) q = Ok q').
Proof.
  induction is as [|i is IH]; intros q q' E; cbn [rfor] in *; [injection E as <-; auto|]. destruct (vget nodes 0) as [x| |]; cbn [mbind res_bind] in *; [|discriminate|discriminate]. destruct (vget (nd_next x) i) as [v| |]; cbn [mbind res_bind] in *; [|discriminate|discriminate].
  apply IH in E as [L R]. destruct (v =? 0); cbn [negb] in *; [auto|]. rewrite app_length in L. cbn in L. split; [lia|]. intros H. rewrite push_room_ok by lia. cbn [mbind res_bind]. apply R. exact H.
Qed.
Lemma build_fits N k fuel a a' : build_fuel N fuel a = Ok a' -> fuel <= S k -> build_room N k fuel a = Ok a'.
Proof.
  unfold build_fuel, build_room. intros E H. destruct (rfor (range 0 N) _ []) as [q| |] eqn:E1 in E; cbn [mbind res_bind] in E; [|discriminate|discriminate]. destruct (rloop _ _ _) as [nodes| |] eqn:E2 in E; cbn [mbind res_bind] in E; [|discriminate|discriminate].
  apply (start_room k) in E1 as [_ R1]. apply (loop_room N k) in E2 as [L2 R2]. cbn [snd] in L2. rewrite R1 by lia. cbn [mbind res_bind]. rewrite R2 by exact H. exact E.
Qed.

(** A star: edges from 0 to 1, ..., m, none to m + 1. *)
Definition star_e (m : nat) : list dedge := map (fun v => (v, 1%Z)) (seq 1 m).
Definition star_g (m : nat) : list (list nat) := seq 0 m :: replicate (S m) [].
Lemma star_get m j : j < m -> star_e m !! j = Some (S j, 1%Z).
Proof. intros H. unfold star_e. rewrite list_lookup_fmap, lookup_seq_lt by exact H. reflexivity. Qed.
Lemma star_scan m l : forall j h q, j + l = m -> length h = S (S m) -> h !! 0 = Some 0%Z -> (forall v, j < v <= m -> h !! v = Some (-1)%Z) ->
  (exists h', bfs_scan (star_e m) 0 (S m) (seq j l) h q = Ok (false, (h', q ++ seq (S j) l))) /\
  (forall k, length q <= k < length q + l -> bfs_scan_room k (star_e m) 0 (S m) (seq j l) h q = Panic).
Proof.
  induction l as [|l IH]; intros j h q Hj Hh H0 Hv; [split; [exists h; cbn; rewrite app_nil_r; reflexivity|intros k Hk; lia]|].
  destruct (IH (S j) (<[S j:=1%Z]> h) (q ++ [S j])) as [(h' & E) P].
  { lia. } { rewrite insert_length. exact Hh. } { rewrite list_lookup_insert_ne by lia. exact H0. } { intros v Hv'. rewrite list_lookup_insert_ne by lia. apply Hv. lia. }
  split.
  - exists h'. cbn [seq bfs_scan]. rewrite (vget_ok _ _ _ (star_get m j ltac:(lia))). cbn [mbind res_bind]. change (0 <? 1)%Z with true. cbn iota. rewrite (vget_ok _ _ _ (Hv (S j) ltac:(lia))). cbn [mbind res_bind]. change (-1 =? -1)%Z with true. cbn iota.
    rewrite (vget_ok _ _ _ H0). cbn [mbind res_bind]. change (iadd i32 0 1) with (Ok 1%Z). cbn [mbind res_bind]. rewrite vset_ok by lia. cbn [mbind res_bind]. rewrite (proj2 (Nat.eqb_neq (S j) (S m))) by lia. rewrite E. rewrite <- app_assoc. reflexivity.
  - intros k Hk. cbn [seq bfs_scan_room]. rewrite (vget_ok _ _ _ (star_get m j ltac:(lia))). cbn [mbind res_bind]. change (0 <? 1)%Z with true. cbn iota. rewrite (vget_ok _ _ _ (Hv (S j) ltac:(lia))). cbn [mbind res_bind]. change (-1 =? -1)%Z with true. cbn iota.
    rewrite (vget_ok _ _ _ H0). cbn [mbind res_bind]. change (iadd i32 0 1) with (Ok 1%Z). cbn [mbind res_bind]. rewrite vset_ok by lia. cbn [mbind res_bind]. rewrite (proj2 (Nat.eqb_neq (S j) (S m))) by lia.
    destruct (decide (length q = k)) as [Eq|Nq]; [rewrite push_room_full by lia; reflexivity|]. rewrite push_room_ok by lia. cbn [mbind res_bind]. apply P. rewrite app_length. cbn. lia.
Qed.
Lemma star_rest e g t h q fuel : Forall (fun u => g !! u = Some []) q -> length q < fuel -> rloop fuel (bfs_step e g t) (h, q) = Ok (false, h).
Proof.
  revert fuel. induction q as [|u q IH]; intros fuel F L; (destruct fuel as [|fuel]; [cbn in L; lia|]); cbn [rloop]; [reflexivity|]. apply Forall_cons in F as [Fu F]. cbn [bfs_step]. rewrite (vget_ok _ _ _ Fu). cbn [mbind res_bind bfs_scan fst snd]. apply IH; [exact F|cbn in L; lia].
Qed.
Lemma star_tight m k : 1 <= k < m -> (exists h, bfs (star_e m) (star_g m) (replicate (S (S m)) (-1)%Z) 0 (S m) = Ok (false, h)) /\ bfs_room k (star_e m) (star_g m) (replicate (S (S m)) (-1)%Z) 0 (S m) = Panic.
Proof.
  intros Hk. unfold bfs, bfs_room. rewrite !replicate_length. rewrite vset_ok by (rewrite replicate_length; lia). cbn [mbind res_bind]. rewrite push_room_ok by (cbn; lia). cbn [mbind res_bind app].
  destruct (star_scan m m 0 (<[0:=0%Z]> (replicate (S (S m)) (-1)%Z)) []) as [(h' & E) P].
  { lia. } { rewrite insert_length, replicate_length. reflexivity. } { reflexivity. } { intros v Hv. rewrite list_lookup_insert_ne by lia. apply lookup_replicate_2. lia. }
  assert (length (star_g m) = S (S m)) as -> by (unfold star_g; cbn; rewrite replicate_length; reflexivity).
  assert (vget (star_g m) 0 = Ok (seq 0 m)) as G0 by reflexivity. split.
  - exists h'. change (rloop (S (S (S (S m)))) (bfs_step (star_e m) (star_g m) (S m)) (<[0:=0%Z]> (replicate (S (S m)) (-1)%Z), [0]))
      with (r ← bfs_step (star_e m) (star_g m) (S m) (<[0:=0%Z]> (replicate (S (S m)) (-1)%Z), [0]); match r with inl s' => rloop (S (S (S m))) (bfs_step (star_e m) (star_g m) (S m)) s' | inr r => Ok r end).
    cbn [bfs_step]. rewrite G0. cbn [mbind res_bind]. rewrite E. cbn [mbind res_bind fst snd app]. apply star_rest; [|rewrite seq_length; lia].
    apply Forall_forall. intros u Hu%elem_of_seq. destruct u as [|u]; [lia|]. unfold star_g. cbn [lookup list_lookup]. apply lookup_replicate_2. lia.
  - change (rloop (S (S (S (S m)))) (bfs_step_room k (star_e m) (star_g m) (S m)) (<[0:=0%Z]> (replicate (S (S m)) (-1)%Z), [0]))
      with (r ← bfs_step_room k (star_e m) (star_g m) (S m) (<[0:=0%Z]> (replicate (S (S m)) (-1)%Z), [0]); match r with inl s' => rloop (S (S (S m))) (bfs_step_room k (star_e m) (star_g m) (S m)) s' | inr r => Ok r end).
    cbn [bfs_step_room]. rewrite G0. cbn [mbind res_bind]. rewrite P by (cbn; lia). reflexivity.
Qed.

(** Histories. *)
Lemma history_fits T n k ops : Nat.max 1 (n - 2) <= k -> (forall s t, DnFlow s t ∈ ops -> s <> t) -> forall d (l : list (option Z)), dn_n d = n -> length (dn_h d) = n ->
  rfor ops (fun o x => y ← dn_step_room k T x.1 o; Ok (y.1, x.2 ++ [y.2])) (d, l) = rfor ops (fun o x => y ← dn_step T x.1 o; Ok (y.1, x.2 ++ [y.2])) (d, l).
Proof.
  intros Hk. induction ops as [|o ops IH]; intros Ho d l Hn Hh; [reflexivity|]. cbn [rfor fst snd]. assert (dn_step_room k T d o = dn_step T d o) as Eo.
  { destruct o as [u v c|s t]; [reflexivity|]. cbn [dn_step_room dn_step]. destruct (decide (t < n)) as [Ht|Ht].
    - rewrite flow_fits; [reflexivity|]. rewrite Hh. unfold bfs_need. rewrite decide_True; [exact Hk|]. split; [exact Ht|]. intros E. symmetry in E. revert E. apply Ho. left.
    - unfold max_flow_room, dn_max_flow. rewrite Hn, (proj2 (Nat.ltb_ge t n)) by lia. destruct (s <? n); reflexivity. }
  rewrite Eo. destruct (dn_step T d o) as [[d1 x]| |] eqn:E1; cbn [mbind res_bind fst snd]; [|reflexivity|reflexivity]. apply IH.
  - intros s t H. apply Ho. right. exact H.
  - destruct o as [u v c|s t]; cbn [dn_step] in E1.
    + destruct (dn_add_edge d u v c) as [d'| |] eqn:E; cbn [mbind res_bind] in E1; [|discriminate|discriminate]. injection E1 as <- <-. apply add_len in E as [_ E]. congruence.
    + destruct (dn_max_flow T d s t) as [y| |] eqn:E; cbn [mbind res_bind] in E1; [|discriminate|discriminate]. injection E1 as <- <-. apply flow_len in E as [_ E]. congruence.
  - destruct o as [u v c|s t]; cbn [dn_step] in E1.
    + destruct (dn_add_edge d u v c) as [d'| |] eqn:E; cbn [mbind res_bind] in E1; [|discriminate|discriminate]. injection E1 as <- <-. apply add_len in E as [E _]. congruence.
    + destruct (dn_max_flow T d s t) as [y| |] eqn:E; cbn [mbind res_bind] in E1; [|discriminate|discriminate]. injection E1 as <- <-. apply flow_len in E as [E _]. congruence.
Qed.

(** build ends after one turn for every node but the root. *)
Lemma loop_more {S R} (f : S -> res (S + R)) fuel : forall s r, rloop fuel f s = Ok r -> rloop (Datatypes.S fuel) f s = Ok r.
Proof.
  induction fuel as [|fuel IH]; intros s r E; [discriminate|]. cbn [rloop] in E. change (rloop (Datatypes.S (Datatypes.S fuel)) f s) with (o ← f s; match o with inl s' => rloop (Datatypes.S fuel) f s' | inr r => Ok r end).
  destruct (f s) as [[s'|r']| |]; cbn [mbind res_bind] in *; [apply IH; exact E|exact E|discriminate|discriminate].
Qed.
Section turns.
  Context (off N : nat) (str : list (list nat)) (E : list nat -> option nat).
  Context (Hroot : str !! 0 = Some []) (Hnd : NoDup str) (Hpre : forall s c, s ++ [c] ∈ str -> s ∈ str)
    (Halph : forall s, s ∈ str -> in_alphabet off N s) (HE : forall s k, E s = Some k -> s ∈ str) (HE0 : E [] = None).
  Lemma turns_few : forall fuel D nodes q, QI str D q -> NOK off N str E (fullD D) (discD D q) nodes -> length str - 1 - length D < fuel -> exists nodes', rloop fuel (build_step N) (nodes, q) = Ok nodes'.
  Proof.
    induction fuel as [|fuel IH]; intros D nodes q Q NK Hf; [lia|]. cbn [rloop]. destruct q as [|u q]; [exists nodes; reflexivity|].
    destruct (q_in _ _ _ Q u) as [Hul _]; [left; left|]. destruct (lookup_lt_is_Some_2 str u Hul) as [s Hs].
    destruct (turn_ok off N str E Hroot Hnd Hpre Halph HE D q u Q s Hs nodes NK) as (nodes1 & ch & E1 & Q1 & NK1).
    assert (build_step N (nodes, u :: q) = Ok (inl (nodes1, q ++ ch))) as -> by (unfold build_step; rewrite E1; reflexivity). cbn [mbind res_bind]. apply (IH (u :: D) nodes1 (q ++ ch) Q1 NK1).
    assert (length (0 :: u :: D) <= length (seq 0 (length str))) as H; [|rewrite seq_length in H; cbn in *; lia].
    apply submseteq_length, NoDup_submseteq.
    - pose proof (q_nodup _ _ _ Q) as Hn. cbn in Hn. apply NoDup_cons in Hn as [Hn1 Hn]. apply NoDup_app in Hn as (_ & _ & Hn). apply NoDup_cons. split.
      + intros H. apply elem_of_cons in H as [<-|H]; [destruct (q_in _ _ _ Q 0 ltac:(left; left)); congruence|destruct (q_in _ _ _ Q 0 (or_intror H)); congruence].
      + apply NoDup_cons. split; [|exact Hn]. intros H. apply Hn1, elem_of_app. auto.
    - intros p H. apply elem_of_seq. cbn. split; [lia|]. apply elem_of_cons in H as [->|H]; [apply lookup_lt_Some in Hroot; exact Hroot|].
      apply elem_of_cons in H as [->|H]; apply (q_in _ _ _ Q); [left; left|right; exact H].
  Qed.
  Lemma build_few n nodes0 : TI off N str nodes0 E -> exists a, build_fuel N (length nodes0) (Aho n nodes0) = Ok a.
  Proof.
    intros Hti. unfold build_fuel. cbn [ah_nodes ah_n]. destruct (start_ok off N str E Hroot Hnd Halph HE0 nodes0 Hti) as (q0 & -> & Q0 & NK0). cbn [mbind res_bind].
    destruct (turns_few (length nodes0) [] nodes0 q0 Q0 NK0) as (nodes & ->); [|eexists; reflexivity]. rewrite (ti_len _ _ _ _ _ Hti). apply lookup_lt_Some in Hroot. cbn. lia.
  Qed.
End turns.
Lemma build_more N fuel a a' : build_fuel N fuel a = Ok a' -> build_fuel N (S fuel) a = Ok a'.
Proof.
  unfold build_fuel. intros E. destruct (rfor _ _ _) as [q| |]; cbn [mbind res_bind] in *; [|discriminate|discriminate]. destruct (rloop fuel _ _) as [x| |] eqn:El; cbn [mbind res_bind] in E; [|discriminate|discriminate]. rewrite (loop_more _ _ _ _ El). exact E.
Qed.
Lemma room_more N k fuel a a' : build_room N k fuel a = Ok a' -> build_room N k (S fuel) a = Ok a'.
Proof.
  unfold build_room. intros E. destruct (rfor _ _ _) as [q| |]; cbn [mbind res_bind] in *; [|discriminate|discriminate]. destruct (rloop fuel _ _) as [x| |] eqn:El; cbn [mbind res_bind] in E; [|discriminate|discriminate]. rewrite (loop_more _ _ _ _ El). exact E.
Qed.
Lemma from_fits off N n ins k : Forall (insertable off N) ins -> exists a a', aho_inserts off N (aho_new N n) ins = Ok a /\ aho_build N a = Ok a' /\ (length (ah_nodes a) <= S k -> build_room N k (S (length (ah_nodes a))) a = Ok a').
Proof.
  intros Hg. destruct (aho_of_ok off N n ins Hg) as (str' & a' & Ea' & _ ). destruct (inserts_ok off N n ins Hg) as (str & a & E & Hn & TH & Hl). pose proof TH as [Hlen Hroot Hnd Hpre Halph HE Hnode].
  exists a, a'. split; [exact E|]. unfold aho_of in Ea'. rewrite E in Ea'. cbn [mbind res_bind] in Ea'. split; [exact Ea'|]. intros Hk.
  assert (last_index ins [] = None) as HE0.
  { clear -Hg. unfold last_index. assert (forall s o, s = [] -> o = None -> foldl (fun o (x : list nat * nat) => if decide (x.1 = s) then Some x.2 else o) o ins = None) as H; [|apply H; reflexivity].
    induction Hg as [|x ins [Hx _] Hg IH]; intros s o -> Ho; cbn; [exact Ho|]. rewrite decide_False by exact Hx. apply IH; [reflexivity|exact Ho]. }
  destruct a as [n' nodes]. cbn [ah_n ah_nodes] in *. destruct (build_few off N str (last_index ins) Hroot Hnd Hpre Halph HE HE0 n' nodes TH) as (a2 & E2).
  pose proof (build_more _ _ _ _ E2) as E3. unfold aho_build in Ea'. cbn [ah_nodes] in Ea'. rewrite E3 in Ea'. injection Ea' as <-. apply room_more. apply build_fits; [exact E2|exact Hk].
Qed.
