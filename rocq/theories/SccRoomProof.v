From Verif Require Import Prelude IntModel SccModel RingProof SccRoomModel.

(** The entries -1. *)
Fixpoint fresh (h : list Z) : nat := match h with [] => 0 | x :: h => (if (x =? -1)%Z then 1 else 0) + fresh h end.
Lemma fresh_set : forall h v d, h !! v = Some (-1)%Z -> d <> (-1)%Z -> S (fresh (<[v:=d]> h)) = fresh h.
Proof.
  induction h as [|x h IH]; intros v d Hv Hd; [discriminate|]. destruct v as [|v].
  - cbn in Hv. injection Hv as ->. cbn. destruct (Z.eqb_spec d (-1)); [contradiction|]. lia.
  - pose proof (IH v d Hv Hd) as H. change (S ((if (x =? -1)%Z then 1 else 0) + fresh (<[v:=d]> h)) = (if (x =? -1)%Z then 1 else 0) + fresh h). lia.
Qed.
Lemma fresh_all n : fresh (replicate n (-1)%Z) = n.
Proof. induction n as [|n IH]; cbn; [reflexivity|]. rewrite IH. reflexivity. Qed.

(** The stack has room for all vertices not yet visited. *)
Definition fits (k : nat) (st : tj) : Prop := (0 <= tj_pos st)%Z /\ length (tj_stk st) + fresh (tj_ord st) <= k.
Definition keeps (k : nat) (a b : tj) : Prop := a = b /\ fits k a.
Lemma pop_len u : forall stk ons comp stk' ons' comp', pop_comp u stk ons comp = Ok (stk', ons', comp') -> length stk' <= length stk.
Proof.
  induction stk as [|v stk IH]; intros ons comp stk' ons' comp' E; cbn [pop_comp] in E; [discriminate|]. destruct (vset ons v false) as [o| |]; cbn [mbind res_bind] in E; [|discriminate|discriminate].
  destruct (u =? v); [injection E as <- <- <-; cbn; lia|]. apply IH in E. cbn. lia.
Qed.
Lemma leave_fits k u st : fits k st -> same (keeps k) (tj_leave u st) (tj_leave u st).
Proof.
  intros [F1 F2]. unfold tj_leave. destruct (vget (tj_low st) u) as [lu| |]; cbn [mbind res_bind]; [|exact I|exact I]. destruct (vget (tj_ord st) u) as [ou| |]; cbn [mbind res_bind]; [|exact I|exact I].
  destruct (lu =? ou)%Z; [|cbn; unfold keeps, fits; auto]. destruct (pop_comp u (tj_stk st) (tj_ons st) []) as [[[stk ons] comp]| |] eqn:E; cbn [mbind res_bind]; [|exact I|exact I].
  apply pop_len in E. split; [reflexivity|]. split; [exact F1|]. cbn. lia.
Qed.
Lemma enter_fits k u st : fits k st -> tj_ord st !! u = Some (-1)%Z -> same (keeps k) (tj_enter_room k u st) (tj_enter u st).
Proof.
  intros [F1 F2] Hu. pose proof (fresh_set _ _ (tj_pos st) Hu ltac:(lia)) as HF. unfold tj_enter_room, tj_enter. rewrite (vset_ok (tj_ord st) u) by (apply lookup_lt_Some in Hu; exact Hu). cbn [mbind res_bind].
  destruct (vset (tj_low st) u (tj_pos st)) as [low| |]; cbn [mbind res_bind]; [|exact I|exact I]. destruct (iadd i32 (tj_pos st) 1) as [p| |] eqn:Ep; cbn [mbind res_bind]; [|exact I|exact I]. apply chk_inv in Ep as [-> _].
  rewrite (proj2 (Nat.ltb_lt (length (tj_stk st)) k)) by lia. cbn [rassert mbind res_bind]. destruct (vset (tj_ons st) u true) as [ons| |]; cbn [mbind res_bind]; [|exact I|exact I].
  split; [reflexivity|]. split; [cbn; lia|]. cbn. lia.
Qed.
Lemma edge_fits k rec rec' u v st : (forall v st, fits k st -> tj_ord st !! v = Some (-1)%Z -> same (keeps k) (rec v st) (rec' v st)) -> fits k st -> same (keeps k) (edge_body rec u v st) (edge_body rec' u v st).
Proof.
  intros H F. unfold edge_body. destruct (vget (tj_ord st) v) as [o| |] eqn:Eo; cbn [mbind res_bind]; [|exact I|exact I]. apply vget_ok_iff in Eo.
  apply (same_bind (keeps k)); [destruct (Z.eqb_spec o (-1)) as [->|]; [apply H; assumption|split; [reflexivity|exact F]]|]. clear. intros st st' [<- [F1 F2]].
  apply same_bind_eq. intros b. destruct b; [|split; [reflexivity|split; assumption]]. apply same_bind_eq. intros lu. apply same_bind_eq. intros lv. apply same_bind_eq. intros low. split; [reflexivity|]. split; assumption.
Qed.
Lemma tdfs_fits k g fuel : forall u st, fits k st -> tj_ord st !! u = Some (-1)%Z -> same (keeps k) (tdfs_room k fuel g u st) (tdfs fuel g u st).
Proof.
  induction fuel as [|fuel IH]; intros u st F Hu; cbn [tdfs_room tdfs]; [exact I|]. apply (same_bind (keeps k)); [apply enter_fits; assumption|]. clear st F Hu. intros st st' [<- F].
  apply same_bind_eq. intros es. apply (same_bind (keeps k)).
  - apply same_for; [|split; [reflexivity|exact F]]. clear st F. intros v st st' [<- F]. apply edge_fits; [exact IH|exact F].
  - clear st F. intros st st' [<- F]. apply leave_fits. exact F.
Qed.
Lemma scc_fits k g : length g <= k -> scc_room k g = scc g.
Proof.
  intros Hk. apply same_eq. unfold scc_room, scc. apply (same_bind (keeps k)); [|intros a b [-> _]; apply same_refl]. apply same_for.
  - intros i st st' [<- F]. destruct (vget (tj_ord st) i) as [o| |] eqn:Eo; cbn [mbind res_bind]; [|exact I|exact I]. apply vget_ok_iff in Eo. destruct (Z.eqb_spec o (-1)) as [->|]; [apply tdfs_fits; assumption|split; [reflexivity|exact F]].
  - split; [reflexivity|]. split; [cbn; lia|]. cbn. rewrite fresh_all. exact Hk.
Qed.

(** A path 0, 1, ..., n - 1 fills the stack. *)
Definition path_graph (n : nat) : list (list nat) := map (fun v => if S v <? n then [S v] else []) (seq 0 n).
Lemma path_get n v : v < n -> path_graph n !! v = Some (if S v <? n then [S v] else []).
Proof. intros H. unfold path_graph. rewrite list_lookup_fmap, lookup_seq_lt by exact H. reflexivity. Qed.
Lemma path_full n k : (Z.of_nat n < 2 ^ 31)%Z -> forall fuel u st, u <= k < n -> n - u <= fuel -> length (tj_stk st) = u -> tj_pos st = Z.of_nat u -> length (tj_ons st) = n -> length (tj_low st) = n -> length (tj_ord st) = n ->
  (forall v, u <= v < n -> tj_ord st !! v = Some (-1)%Z) -> tdfs_room k fuel (path_graph n) u st = Panic.
Proof.
  intros Hn. induction fuel as [|fuel IH]; intros u st Hu Hf Hs Hp L1 L2 L3 Ho; [lia|]. cbn [tdfs_room]. unfold tj_enter_room. rewrite (vset_ok (tj_ord st)) by lia. cbn [mbind res_bind]. rewrite (vset_ok (tj_low st)) by lia. cbn [mbind res_bind].
  rewrite iadd_ok by (rewrite Hp; split; cbn; lia). cbn [mbind res_bind]. rewrite Hs. destruct (Nat.ltb_spec u k) as [Hk|Hk]; [|reflexivity]. cbn [rassert mbind res_bind]. rewrite vset_ok by lia. cbn [mbind res_bind].
  rewrite (vget_ok _ _ _ (path_get n u ltac:(lia))). cbn [mbind res_bind]. rewrite (proj2 (Nat.ltb_lt (S u) n)) by lia. cbn [rfor]. unfold edge_body at 1. cbn [tj_ord].
  rewrite (vget_ok _ (S u) (-1)%Z) by (rewrite list_lookup_insert_ne by lia; apply Ho; lia). cbn [mbind res_bind]. change (-1 =? -1)%Z with true. cbn iota. rewrite IH; [reflexivity| | |..]; cbn [tj_stk tj_pos tj_ons tj_low tj_ord length]; rewrite ?insert_length; try lia.
  intros v Hv. rewrite list_lookup_insert_ne by lia. apply Ho. lia.
Qed.
Lemma path_tight n k : (Z.of_nat n < 2 ^ 31)%Z -> k < n -> scc_room k (path_graph n) = Panic.
Proof.
  intros Hn Hk. unfold scc_room. assert (length (path_graph n) = n) as -> by (unfold path_graph; rewrite map_length, seq_length; reflexivity). destruct n as [|n]; [lia|].
  change (range 0 (S n)) with (0 :: seq 1 n). cbn [rfor]. rewrite (vget_ok _ 0 (-1)%Z) by reflexivity. cbn [mbind res_bind]. change (-1 =? -1)%Z with true. cbn iota.
  rewrite path_full; [reflexivity|exact Hn|lia|lia|reflexivity|reflexivity|..]; cbn [tj_ons tj_low tj_ord tj_new]; rewrite ?replicate_length; try reflexivity. intros v Hv. apply lookup_replicate_2. lia.
Qed.
