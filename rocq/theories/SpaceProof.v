From Verif Require Import Prelude UtilModel ArraySpec SegtreeSpec SegtreeModel LazySpec LazyModel FenwickSpec FenwickModel SparseModel UnionFindModel LiftModel HldSpec HldModel IntModel DinicModel MatchingModel AhoModel SpaceSpec UtilProps.
Close Scope Z_scope.

(** P holds of the result, if there is one. *)
Definition keeps {A} (m : res A) (P : A -> Prop) : Prop := forall a, m = Ok a -> P a.
Lemma kp_ok {A} (a : A) (P : A -> Prop) : P a -> keeps (Ok a) P.
Proof. intros H b E. injection E as <-. exact H. Qed.
Lemma kp_panic {A} (P : A -> Prop) : keeps Panic P.
Proof. intros a E. discriminate. Qed.
Lemma kp_diverge {A} (P : A -> Prop) : keeps Diverge P.
Proof. intros a E. discriminate. Qed.
Lemma kp_bind {A B} (m : res A) (f : A -> res B) (Q : A -> Prop) (P : B -> Prop) : keeps m Q -> (forall a, Q a -> keeps (f a) P) -> keeps (m ≫= f) P.
Proof. intros H1 H2 b E. apply rbind_ok_inv in E as (a & E & E'). exact (H2 a (H1 a E) b E'). Qed.
Lemma kp_bind0 {A B} (m : res A) (f : A -> res B) (P : B -> Prop) : (forall a, keeps (f a) P) -> keeps (m ≫= f) P.
Proof. intros H. apply (kp_bind m f (fun _ => True)); [intros a _; exact I|auto]. Qed.
Lemma kp_ret {A B} (a : A) (f : A -> res B) (P : B -> Prop) : keeps (f a) P -> keeps (Ok a ≫= f) P.
Proof. auto. Qed.
Lemma kp_assoc {A B C} (m : res A) (k : A -> res B) (f : B -> res C) (P : C -> Prop) : keeps (m ≫= fun x => k x ≫= f) P -> keeps ((m ≫= k) ≫= f) P.
Proof. destruct m; exact id. Qed.
Lemma kp_mono {A} (m : res A) (P Q : A -> Prop) : keeps m P -> (forall a, P a -> Q a) -> keeps m Q.
Proof. intros H1 H2 a E. auto. Qed.
Lemma kp_vset {A} (v : list A) i x : keeps (vset v i x) (fun v' => length v' = length v).
Proof. unfold vset. destruct (decide _); [apply kp_ok; apply insert_length|apply kp_panic]. Qed.
Lemma kp_rfor {A S} (P : S -> Prop) (xs : list A) (f : A -> S -> res S) : (forall x s, P s -> keeps (f x s) P) -> forall s, P s -> keeps (rfor xs f s) P.
Proof.
  intros H. induction xs as [|x xs IH]; intros s Hs; cbn [rfor]; [apply kp_ok; exact Hs|]. eapply kp_bind; [apply H; exact Hs|]. exact IH.
Qed.
Lemma kp_rloop {S R} (P : S -> Prop) (Q : R -> Prop) (f : S -> res (S + R)) : (forall s, P s -> keeps (f s) (fun r => match r with inl s' => P s' | inr r => Q r end)) ->
  forall fuel s, P s -> keeps (rloop fuel f s) Q.
Proof.
  intros H. induction fuel as [|fuel IH]; intros s Hs; cbn [rloop]; [apply kp_diverge|]. eapply kp_bind; [apply H; exact Hs|]. intros [s'|r] Hr; [apply IH; exact Hr|apply kp_ok; exact Hr].
Qed.
Lemma kp_run {St Op Out} (P : St -> Prop) (step : St -> Op -> res (St * Out)) : (forall s o, P s -> keeps (step s o) (fun r => P r.1)) ->
  forall ops s, P s -> keeps (run step s ops) (fun r => P r.1).
Proof.
  intros H. induction ops as [|o ops IH]; intros s Hs; cbn [run]; [apply kp_ok; exact Hs|]. eapply kp_bind; [apply H; exact Hs|]. intros [s' out] Hs'. cbn in *. eapply kp_bind; [apply IH; exact Hs'|]. intros [s2 outs] H2. apply kp_ok. exact H2.
Qed.

Create HintDb kp discriminated.
Ltac kp1 :=
  match goal with
  | |- keeps (Ok _) _ => apply kp_ok; cbn [fst snd]
  | |- keeps Panic _ => apply kp_panic
  | |- keeps Diverge _ => apply kp_diverge
  | |- keeps (Ok _ ≫= _) _ => apply kp_ret
  | |- keeps ((_ ≫= _) ≫= _) _ => apply kp_assoc
  | |- keeps ((if ?b then _ else _) ≫= _) _ => destruct b
  | |- keeps ((match ?x with _ => _ end) ≫= _) _ => destruct x
  | |- keeps (vset ?v ?i ?x ≫= _) _ => eapply kp_bind; [apply kp_vset|cbn beta; intros ? ?]
  | |- keeps (?m ≫= _) _ => eapply kp_bind; [solve [eauto with kp]|cbn beta; intros ? ?]
  | |- keeps (vget _ _ ≫= _) _ => apply kp_bind0; intros ?
  | |- keeps (nsub _ _ ≫= _) _ => apply kp_bind0; intros ?
  | |- keeps (rassert _ ≫= _) _ => apply kp_bind0; intros ?
  | |- keeps (lg _ ≫= _) _ => apply kp_bind0; intros ?
  | |- keeps (ceil_lg _ ≫= _) _ => apply kp_bind0; intros ?
  | |- keeps (iadd _ _ _ ≫= _) _ => apply kp_bind0; intros ?
  | |- keeps (isub _ _ _ ≫= _) _ => apply kp_bind0; intros ?
  | |- keeps (runwrap _ ≫= _) _ => apply kp_bind0; intros ?
  | |- keeps (climb _ _ _ ≫= _) _ => apply kp_bind0; intros ?
  | |- keeps (by_pos _ _ _ ≫= _) _ => apply kp_bind0; intros ?
  | |- keeps (letter _ _ ≫= _) _ => apply kp_bind0; intros ?
  | |- keeps (uadd _ _ ≫= _) _ => apply kp_bind0; intros ?
  | |- keeps (pa_get _ _ _ ≫= _) _ => apply kp_bind0; intros ?
  | |- keeps (lgn _ ≫= _) _ => apply kp_bind0; intros ?
  | |- keeps (find_free _ _ ≫= _) _ => apply kp_bind0; intros ?
  | |- keeps (vget2 _ _ _ ≫= _) _ => apply kp_bind0; intros ?
  | |- keeps (st_get _ _ ≫= _) _ => apply kp_bind0; intros ?
  | |- keeps (st_prod _ _ _ _ _ ≫= _) _ => apply kp_bind0; intros ?
  | |- keeps (st_all_prod _ ≫= _) _ => apply kp_bind0; intros ?
  | |- keeps (strip_even _ ≫= _) _ => apply kp_bind0; intros ?
  | |- keeps (strip_odd _ ≫= _) _ => apply kp_bind0; intros ?
  | |- keeps (rloop _ (st_prod_step _ _) _ ≫= _) _ => apply kp_bind0; intros ?
  | |- keeps (fw_pref _ _ _ _ ≫= _) _ => apply kp_bind0; intros ?
  | |- keeps (fw_sum _ _ _ _ _ _ ≫= _) _ => apply kp_bind0; intros ?
  | |- keeps (lt_all_prod _ ≫= _) _ => apply kp_bind0; intros ?
  | |- keeps (if ?b then _ else _) _ => destruct b
  | |- keeps (match ?x with _ => _ end) _ => destruct x
  | |- keeps (vset ?v ?i ?x) _ => eapply kp_mono; [apply kp_vset|cbn beta; intros ? ?]
  | |- keeps ?m _ => solve [eauto with kp]
  end.
Ltac kp := repeat (cbn beta iota zeta; kp1).

(** The number of leaves. *)
Lemma size_small n l : ceil_lg (Z.of_nat n mod 2 ^ 32) = Ok l -> 0 < n -> 2 ^ Z.to_nat l < 2 * n.
Proof.
  intros El Hn. set (m := (Z.of_nat n mod 2 ^ 32)%Z) in *. assert (Hm : (0 <= m < 2 ^ 32)%Z) by (apply Z.mod_pos_bound; lia). assert (m <= Z.of_nat n)%Z by (apply Z.mod_le; lia). clearbody m.
  destruct (C49_ceil_lg m Hm) as (k & Ek & K1 & K2 & K3). rewrite El in Ek. injection Ek as <-. destruct (Z.eq_dec l 0) as [->|Hl]; [change (2 ^ Z.to_nat 0) with 1; lia|].
  assert (~ (m <= 2 ^ (l - 1))%Z) by (intros Q; specialize (K3 (l - 1)%Z ltac:(lia) Q); lia).
  apply Nat2Z.inj_lt. rewrite Nat2Z.inj_pow, Nat2Z.inj_mul, Z2Nat.id by lia. replace (Z.of_nat 2 ^ l)%Z with (2 * 2 ^ (l - 1))%Z; [lia|]. rewrite <- Z.pow_succ_r by lia. f_equal. lia.
Qed.

(** Segtree *)
Section seg.
  Context {S : Type} (e : S) (op : S -> S -> S).
  Lemma kp_update d k n : length d = n -> keeps (st_update op d k) (fun d => length d = n).
  Proof. intros H. unfold st_update. kp. lia. Qed.
  Lemma kp_copy (d : list S) off v n : length d = n -> keeps (copy_into d off v) (fun d => length d = n /\ off + length v <= n).
  Proof. intros H. unfold copy_into. destruct (Nat.leb_spec (off + length v) (length d)); [|apply kp_panic]. apply kp_ok. rewrite !app_length, take_length, drop_length. lia. Qed.
  Definition seg_dims (n size : nat) (t : segtree S) : Prop := sg_n t = n /\ sg_size t = size /\ length (sg_d t) = 2 * size.
  Lemma kp_step n size t o : seg_dims n size t -> keeps (st_step e op t o) (fun r => seg_dims n size r.1).
  Proof.
    intros (H1 & H2 & H3). destruct o; unfold st_step, st_set; kp; try (split_and!; assumption).
    eapply kp_bind; [apply (kp_rfor (fun d => length d = 2 * size)); [intros; apply kp_update; assumption|lia]|]. intros d Hd. kp. split_and!; auto.
  Qed.
  Lemma kp_from v : keeps (st_from e op v) (fun t => seg_dims (length v) (sg_size t) t /\ length v <= sg_size t /\ (0 < length v -> sg_size t < 2 * length v)).
  Proof.
    unfold st_from. intros t E. apply rbind_ok_inv in E as (l & El & E). pose proof (size_small _ _ El) as Hl. revert t E.
    enough (K : keeps (d ← copy_into (replicate (2 * 2 ^ Z.to_nat l) e) (2 ^ Z.to_nat l) v; d ← rfor (rev (range 1 (2 ^ Z.to_nat l))) (fun i d => st_update op d i) d; Ok (Segtree (length v) (2 ^ Z.to_nat l) (Z.to_nat l) d))
      (fun t => seg_dims (length v) (sg_size t) t /\ length v <= sg_size t /\ (0 < length v -> sg_size t < 2 * length v))) by exact K.
    eapply kp_bind; [apply kp_copy; apply replicate_length|]. intros d [Hd Hv]. eapply kp_bind; [apply (kp_rfor (fun d => length d = 2 * 2 ^ Z.to_nat l)); [intros; apply kp_update; assumption|exact Hd]|]. intros d' Hd'. apply kp_ok. cbn [sg_size].
    split; [|split; [lia|exact Hl]]. split_and!; auto.
  Qed.
End seg.

(** LazySegtree *)
Section lazy.
  Context {S F : Type} (e : S) (op : S -> S -> S) (idm : F) (mapping : F -> S -> S) (comp : F -> F -> F).
  Definition dims (a b : nat) (s : tree S F) : Prop := length s.1 = a /\ length s.2 = b.
  Lemma kp_lt_update a b s k : dims a b s -> keeps (lt_update op s k) (dims a b).
  Proof. destruct s as [d lz]. intros [H1 H2]. unfold lt_update. kp. split; cbn in *; lia. Qed.
  Lemma kp_all_apply a b size s k f : dims a b s -> keeps (lt_all_apply mapping comp size s k f) (dims a b).
  Proof. destruct s as [d lz]. intros [H1 H2]. unfold lt_all_apply. kp; split; cbn in *; lia. Qed.
  Local Hint Resolve kp_lt_update kp_all_apply : kp.
  Lemma kp_push a b size s k : dims a b s -> keeps (lt_push idm mapping comp size s k) (dims a b).
  Proof. intros H. unfold lt_push. kp. unfold dims in *. cbn. lia. Qed.
  Local Hint Resolve kp_push : kp.
  Lemma kp_push_path a b size log s p : dims a b s -> keeps (lt_push_path idm mapping comp size log s p) (dims a b).
  Proof. intros H. apply kp_rfor; [|exact H]. intros; kp. Qed.
  Lemma kp_update_path a b log s p : dims a b s -> keeps (lt_update_path op log s p) (dims a b).
  Proof. intros H. apply kp_rfor; [|exact H]. intros; kp. Qed.
  Local Hint Resolve kp_push_path kp_update_path : kp.
  Definition lz_dims (n size : nat) (t : lazytree S F) : Prop := lt_n t = n /\ lt_size t = size /\ length (lt_d t) = 2 * size /\ length (lt_lz t) = size.
  Lemma lz_with n size t s : lz_dims n size t -> dims (2 * size) size s -> lz_dims n size (with_tree t s).
  Proof. intros (H1 & H2 & H3 & H4) [H5 H6]. split_and!; assumption. Qed.
  Lemma lz_tree n size t : lz_dims n size t -> dims (2 * size) size (lt_d t, lt_lz t).
  Proof. intros (H1 & H2 & H3 & H4). split; assumption. Qed.
  Lemma kp_bounds a b size l r i s : dims a b s -> keeps (lt_push_bounds idm mapping comp size l r i s) (dims a b).
  Proof. intros H. unfold lt_push_bounds. kp; assumption. Qed.
  Lemma kp_bounds' a b size l r i s : dims a b s -> keeps (lt_push_bounds' idm mapping comp size l r i s) (dims a b).
  Proof. intros H. unfold lt_push_bounds'. kp; assumption. Qed.
  Lemma kp_ubounds a b l r i s : dims a b s -> keeps (lt_update_bounds op l r i s) (dims a b).
  Proof. intros H. unfold lt_update_bounds. kp; assumption. Qed.
  Lemma kp_apply_step a b size f s : dims a b s.2 -> keeps (lt_apply_step mapping comp size f s) (fun r => match r with inl s' => dims a b s'.2 | inr r => dims a b r end).
  Proof. destruct s as [[l r] s]. intros H. cbn in H. unfold lt_apply_step. kp; assumption. Qed.
  Lemma kp_right a b size g s l sm : dims a b s -> keeps (lt_descend_right op idm mapping comp size g s l sm) (fun r => dims a b r.1).
  Proof.
    intros H. unfold lt_descend_right. eapply kp_bind; [apply (kp_rloop (fun x : tree S F * nat * S => dims a b x.1.1) (fun x : tree S F * nat => dims a b x.1)); [|exact H]|].
    - intros [[s' l'] sm'] H'. cbn in H'. kp; assumption.
    - intros [s' l'] H'. cbn in H'. kp. assumption.
  Qed.
  Lemma kp_left a b size g s r sm : dims a b s -> keeps (lt_descend_left op idm mapping comp size g s r sm) (fun r => dims a b r.1).
  Proof.
    intros H. unfold lt_descend_left. eapply kp_bind; [apply (kp_rloop (fun x : tree S F * nat * S => dims a b x.1.1) (fun x : tree S F * nat => dims a b x.1)); [|exact H]|].
    - intros [[s' l'] sm'] H'. cbn in H'. kp; assumption.
    - intros [s' l'] H'. cbn in H'. kp. assumption.
  Qed.
  Local Hint Resolve kp_right kp_left lz_with lz_tree : kp.
  Lemma kp_lt_set n size t p x : lz_dims n size t -> keeps (lt_set op idm mapping comp t p x) (lz_dims n size).
  Proof.
    intros H. unfold lt_set. kp1. cbv zeta. eapply kp_bind; [eapply kp_push_path, lz_tree, H|]. intros s Hs. kp1. eapply kp_bind; [eapply (kp_update_path (2 * size) size)|].
    - destruct Hs. split; cbn; [lia|assumption].
    - intros s' Hs'. kp. apply lz_with; assumption.
  Qed.
  Lemma kp_lt_get n size t p : lz_dims n size t -> keeps (lt_get idm mapping comp t p) (fun r => lz_dims n size r.1).
  Proof. intros H. unfold lt_get. kp1. cbv zeta. eapply kp_bind; [eapply kp_push_path, lz_tree, H|]. intros s Hs. kp. apply lz_with; assumption. Qed.
  Lemma kp_lt_prod n size t l r : lz_dims n size t -> keeps (lt_prod e op idm mapping comp t l r) (fun x => lz_dims n size x.1).
  Proof.
    intros H. unfold lt_prod. kp1. destruct (l =? r); [kp; exact H|]. cbv zeta. eapply kp_bind; [apply (kp_rfor (dims (2 * size) size)); [intros; apply kp_bounds; assumption|apply lz_tree with n, H]|]. intros s Hs.
    apply kp_bind0. intros [sml smr]. kp. apply lz_with; assumption.
  Qed.
  Lemma kp_lt_apply n size t p f : lz_dims n size t -> keeps (lt_apply op idm mapping comp t p f) (lz_dims n size).
  Proof.
    intros H. unfold lt_apply. kp1. cbv zeta. eapply kp_bind; [eapply kp_push_path, lz_tree, H|]. intros s Hs. kp1. kp1. eapply kp_bind; [eapply (kp_update_path (2 * size) size)|].
    - destruct Hs. split; cbn; [lia|assumption].
    - intros s' Hs'. kp. apply lz_with; assumption.
  Qed.
  Lemma kp_lt_apply_range n size t l r f : lz_dims n size t -> keeps (lt_apply_range op idm mapping comp t l r f) (lz_dims n size).
  Proof.
    intros H. unfold lt_apply_range. kp1. destruct (l =? r); [kp; exact H|]. cbv zeta. eapply kp_bind; [apply (kp_rfor (dims (2 * size) size)); [intros; apply kp_bounds'; assumption|apply lz_tree with n, H]|]. intros s Hs.
    eapply kp_bind; [eapply (kp_rloop (fun x : nat * nat * tree S F => dims (2 * size) size x.2) (dims (2 * size) size)); [intros; apply kp_apply_step; assumption|exact Hs]|]. intros s' Hs'.
    eapply kp_bind; [apply (kp_rfor (dims (2 * size) size)); [intros; apply kp_ubounds; assumption|exact Hs']|]. intros s2 Hs2. kp. apply lz_with; assumption.
  Qed.
  Lemma kp_max_right n size t l g : lz_dims n size t -> keeps (lt_max_right e op idm mapping comp t l g) (fun x => lz_dims n size x.1).
  Proof.
    intros H. unfold lt_max_right. kp1. kp1. destruct (l =? lt_n t); [kp; exact H|]. cbv zeta. eapply kp_bind; [eapply kp_push_path, lz_tree, H|]. intros s Hs.
    eapply kp_bind; [apply (kp_rloop (fun x : tree S F * nat * S => dims (2 * size) size x.1.1) (fun x : tree S F * nat => dims (2 * size) size x.1)); [|exact Hs]|].
    - intros [[s' l'] sm'] H'. cbn in H'. unfold lt_max_right_step. kp; assumption.
    - intros [s' r'] H'. cbn in H'. kp. apply lz_with; assumption.
  Qed.
  Lemma kp_min_left n size t r g : lz_dims n size t -> keeps (lt_min_left e op idm mapping comp t r g) (fun x => lz_dims n size x.1).
  Proof.
    intros H. unfold lt_min_left. kp1. kp1. destruct (r =? 0); [kp; exact H|]. cbv zeta. kp1. eapply kp_bind; [eapply kp_push_path, lz_tree, H|]. intros s Hs.
    eapply kp_bind; [apply (kp_rloop (fun x : tree S F * nat * S => dims (2 * size) size x.1.1) (fun x : tree S F * nat => dims (2 * size) size x.1)); [|exact Hs]|].
    - intros [[s' l'] sm'] H'. cbn in H'. unfold lt_min_left_step. kp; assumption.
    - intros [s' r'] H'. cbn in H'. kp. apply lz_with; assumption.
  Qed.
  Local Hint Resolve kp_lt_set kp_lt_get kp_lt_prod kp_lt_apply kp_lt_apply_range kp_max_right kp_min_left : kp.
  Lemma kp_lt_step n size t o : lz_dims n size t -> keeps (lt_step e op idm mapping comp t o) (fun r => lz_dims n size r.1).
  Proof. intros H. destruct o; unfold lt_step; kp; assumption. Qed.
  Lemma kp_lt_from v : keeps (lt_from e op idm v) (fun t => lz_dims (length v) (lt_size t) t /\ length v <= lt_size t /\ (0 < length v -> lt_size t < 2 * length v)).
  Proof.
    unfold lt_from. intros t E. apply rbind_ok_inv in E as (l & El & E). pose proof (size_small _ _ El) as Hl. revert t E.
    enough (K : keeps (d ← copy_into (replicate (2 * 2 ^ Z.to_nat l) e) (2 ^ Z.to_nat l) v; s ← rfor (rev (range 1 (2 ^ Z.to_nat l))) (fun i s => lt_update op s i) (d, replicate (2 ^ Z.to_nat l) idm); Ok (Lazytree (length v) (2 ^ Z.to_nat l) (Z.to_nat l) s.1 s.2))
      (fun t => lz_dims (length v) (lt_size t) t /\ length v <= lt_size t /\ (0 < length v -> lt_size t < 2 * length v))) by exact K.
    eapply kp_bind; [apply kp_copy; apply replicate_length|]. intros d [Hd Hv]. eapply kp_bind; [apply (kp_rfor (dims (2 * 2 ^ Z.to_nat l) (2 ^ Z.to_nat l))); [intros; apply kp_lt_update; assumption|split; [exact Hd|apply replicate_length]]|]. intros s' [Hd' Hz']. apply kp_ok. cbn [lt_size].
    split; [|split; [lia|exact Hl]]. split_and!; auto.
  Qed.
End lazy.

(** FenwickTree *)
Section fen.
  Context {T U : Type} (zero : T) (add sub : T -> T -> T) (addu : T -> U -> T).
  Definition fw_dims (n : nat) (t : fenwick T) : Prop := fw_n t = n /\ length (fw_ary t) = n.
  Lemma kp_fw_step n t o : fw_dims n t -> keeps (fw_step zero add sub addu t o) (fun r => fw_dims n r.1).
  Proof.
    intros [H1 H2]. destruct o; unfold fw_step; [|kp; split; assumption|kp; split; assumption]. unfold fw_add. kp1.
    eapply kp_bind; [apply (kp_rloop (fun x : nat * list T => length x.2 = n) (fun x : list T => length x = n)); [|exact H2]|].
    - intros [j a] Ha. cbn in Ha. kp; [lia|exact Ha].
    - intros a Ha. kp. split; assumption.
  Qed.
  Lemma kp_fw_from a : keeps (fw_from zero add a) (fw_dims (length a)).
  Proof.
    unfold fw_from. eapply kp_bind; [apply (kp_rfor (fun x : list T => length x = length a))|].
    - intros i ary H. kp; lia.
    - apply replicate_length.
    - intros ary H. kp. split; [reflexivity|exact H].
  Qed.
End fen.

(** Vectors of vectors *)
Lemma grid_replicate {A} a b (x : A) : grid a b (replicate a (replicate b x)).
Proof. split; [apply replicate_length|]. apply Forall_replicate, replicate_length. Qed.
Lemma grid_set {A} a b (v : list (list A)) i (row : list A) : grid a b v -> length row = b -> keeps (vset v i row) (grid a b).
Proof. intros [H1 H2] H. unfold vset. destruct (decide _); [|apply kp_panic]. apply kp_ok. split; [rewrite insert_length; exact H1|]. apply Forall_insert; assumption. Qed.
Lemma grid_get {A} a b (v : list (list A)) i : grid a b v -> keeps (vget v i) (fun r => length r = b).
Proof. intros [H1 H2] r E. apply vget_ok_iff in E. rewrite Forall_lookup in H2. exact (H2 i r E). Qed.
Lemma kp_vset2 {A} a b (v : list (list A)) c i (x : A) : grid a b v -> keeps (vset2 v c i x) (grid a b).
Proof. intros G. unfold vset2. eapply kp_bind; [apply (grid_get a b); exact G|]. intros r Hr. kp1. apply grid_set; [exact G|congruence]. Qed.
Lemma kp_pa_set a b v c i x : grid a b v -> keeps (pa_set v c i x) (grid a b).
Proof. exact (kp_vset2 a b v c i x). Qed.
Lemma kp_sp_from {T} (v : list T) init op : keeps (sp_from v init op) (fun data => exists k, lg (Z.of_nat (length v)) = Ok k /\ grid (Z.to_nat k + 1) (length v) data).
Proof.
  unfold sp_from, lgn. intros data E. apply rbind_ok_inv in E as (k & Ek & E). apply rbind_ok_inv in Ek as (k' & Ek' & Ek). injection Ek as <-. exists k'. split; [exact Ek'|]. revert data E.
  match goal with |- forall d, ?m = Ok d -> _ => enough (K : keeps m (grid (Z.to_nat k' + 1) (length v))) by exact K end.
  eapply kp_bind; [apply (grid_set (Z.to_nat k' + 1) (length v)); [apply grid_replicate|reflexivity]|]. intros d G. apply kp_rfor; [|exact G]. intros c d' G'. unfold sp_row. kp1. apply kp_rfor; [|exact G']. intros i d2 G2. kp1. kp1. apply kp_vset2. exact G2.
Qed.

(** UnionFind *)
Definition uf_dims (n : nat) (u : uf) : Prop := uf_n u = n /\ length (uf_fa u) = n /\ length (uf_sz u) = n.
Lemma kp_find_fa n fuel : forall fa i, length fa = n -> keeps (uf_find_fa fuel fa i) (fun r => length r.1 = n).
Proof.
  induction fuel as [|fuel IH]; intros fa i H; cbn [uf_find_fa]; [apply kp_diverge|]. kp1. kp1; [kp; exact H|]. eapply kp_bind; [apply IH, H|]. intros [fa' r] H'. cbn in H'. kp. lia.
Qed.
Lemma kp_uf_find n u i : uf_dims n u -> keeps (uf_find u i) (fun r => uf_dims n r.1).
Proof. intros (H1 & H2 & H3). unfold uf_find. eapply kp_bind; [apply (kp_find_fa n), H2|]. intros [fa r] H. kp. split_and!; assumption. Qed.
Lemma kp_uf_step n u o : uf_dims n u -> keeps (uf_step u o) (fun r => uf_dims n r.1).
Proof.
  assert (F : forall u i, uf_dims n u -> keeps (uf_find u i) (fun r => uf_dims n r.1)) by (intros; apply kp_uf_find; assumption).
  intros H. destruct o; unfold uf_step.
  - eapply kp_bind; [apply F, H|]. intros [u' r] H'. kp. exact H'.
  - unfold uf_is_same. kp1. kp1. kp1. kp1. kp1. eapply kp_bind; [apply F, H|]. intros [u1 r1] H1. cbv iota beta. kp1. eapply kp_bind; [apply F, H1|]. intros [u2 r2] H2. kp. exact H2.
  - unfold uf_join. kp1. kp1. kp1. kp1. kp1. eapply kp_bind; [apply F, H|]. intros [u1 r1] H1. cbv iota beta. kp1. eapply kp_bind; [apply F, H1|]. intros [u2 r2] H2. cbv iota beta. kp1; [kp; exact H2|]. destruct H2 as (A1 & A2 & A3). cbn in A1, A2, A3. kp; split_and!; cbn; try assumption; lia.
  - unfold uf_size. kp1. kp1. kp1. eapply kp_bind; [apply F, H|]. intros [u1 r1] H1. kp. exact H1.
  - unfold uf_groups. kp1. unfold uf_groups_loop. eapply kp_bind; [apply (kp_rfor (fun x : uf * list (list nat) => uf_dims n x.1)); [|exact H]|].
    + intros i [u1 l] H1. cbn in H1. eapply kp_bind; [apply F, H1|]. intros [u2 r] H2. kp. exact H2.
    + intros [u1 l] H1. kp. exact H1.
Qed.

(** BinaryLifting *)
Definition bl_dims (n level : nat) (b : bl) : Prop := bl_level b = level /\ grid n level (bl_pa b) /\ length (bl_dep b) = n /\ length (bl_tin b) = n /\ length (bl_tout b) = n.
Lemma kp_enter n level u p st : bl_dims n level st.1 -> keeps (bl_enter u p st) (fun r => bl_dims n level r.1).
Proof.
  destruct st as [b timer]. intros (H1 & H2 & H3 & H4 & H5). cbn in *. unfold bl_enter. kp1. cbv zeta. eapply kp_bind; [apply (kp_pa_set n level), H2|]. intros pa G.
  eapply kp_bind; [apply (kp_rfor (grid n level)); [|exact G]|].
  - intros i pa' G'. kp1. kp1. apply kp_pa_set, G'.
  - intros pa' G'. kp. split_and!; cbn; try assumption; lia.
Qed.
Lemma kp_bl_dfs n level g fuel : forall u p st, bl_dims n level st.1 -> keeps (bl_dfs fuel g u p st) (fun r => bl_dims n level r.1).
Proof.
  induction fuel as [|fuel IH]; intros u p st H; cbn [bl_dfs]; [apply kp_diverge|]. eapply kp_bind; [apply kp_enter, H|]. intros st1 H1. kp1.
  eapply kp_bind; [apply (kp_rfor (fun x : bl * nat => bl_dims n level x.1)); [|exact H1]|].
  - intros v [b t] H2. unfold bl_edge. kp1; [kp; exact H2|]. kp1. kp1. apply IH. destruct H2 as (A1 & A2 & A3 & A4 & A5). cbn in *. split_and!; cbn; try assumption; lia.
  - intros [b t] (A1 & A2 & A3 & A4 & A5). cbn in *. kp. split_and!; cbn; try assumption; lia.
Qed.

(** HLD, the tree *)
Definition hl_dims (n : nat) (h : hl) : Prop := length (h_parent h) = n /\ length (h_dep h) = n /\ length (h_heavy h) = n /\ length (h_head h) = n /\ length (h_pos h) = n /\ length (h_posr h) = n.
Lemma kp_dfs1 n g fuel : forall u h, hl_dims n h -> keeps (dfs1 fuel g u h) (fun r => hl_dims n r.1).
Proof.
  induction fuel as [|fuel IH]; intros u h H; cbn [dfs1]; [apply kp_diverge|]. kp1. eapply kp_bind; [apply (kp_rfor (fun x : hl * nat * nat => hl_dims n x.1.1)); [|exact H]|].
  - intros v [[h' sz] mx] (A1 & A2 & A3 & A4 & A5 & A6). cbn in *. unfold dfs1_edge. kp1. kp1; [kp; split_and!; assumption|]. kp1. kp1. kp1. eapply kp_bind; [apply IH; split_and!; cbn; try assumption; lia|]. intros [h2 c] (B1 & B2 & B3 & B4 & B5 & B6). cbn in *.
    kp; split_and!; cbn; try assumption; lia.
  - intros [[h' sz] mx] H'. kp. exact H'.
Qed.
Lemma kp_dfs2 n g fuel : forall u hd st, hl_dims n st.1 -> keeps (dfs2 fuel g u hd st) (fun r => hl_dims n r.1).
Proof.
  induction fuel as [|fuel IH]; intros u hd [h t] (A1 & A2 & A3 & A4 & A5 & A6); cbn [dfs2]; [apply kp_diverge|]. cbn in *. kp1. kp1. cbv zeta. kp1.
  eapply (kp_bind _ _ (fun x : hl * nat => hl_dims n x.1)).
  - destruct a1 as [v|]; [apply IH|apply kp_ok]; split_and!; cbn; try assumption; lia.
  - intros st1 H1. kp1. eapply kp_bind; [apply (kp_rfor (fun x : hl * nat => hl_dims n x.1)); [|exact H1]|].
    + intros v st2 H2. unfold dfs2_edge. kp1. kp1; [kp; exact H2|]. kp1. kp1; [kp; exact H2|]. apply IH, H2.
    + intros [h' t'] (B1 & B2 & B3 & B4 & B5 & B6). cbn in *. kp. split_and!; cbn; try assumption; lia.
Qed.
Lemma kp_hl_new g root : keeps (hl_new g root) (hl_dims (length g)).
Proof.
  unfold hl_new. cbv zeta. cbn [h_parent h_dep h_heavy h_head h_pos h_posr]. kp1. rewrite replicate_length in *. eapply kp_bind; [apply (kp_dfs1 (length g)); split_and!; cbn; rewrite ?replicate_length; auto|]. intros [h c] H'. cbn in H'.
  eapply kp_bind; [apply (kp_dfs2 (length g)); exact H'|]. intros st H2. kp. exact H2.
Qed.

(** HLD *)
Section hld.
  Context {S F : Type} (e : S) (op : S -> S -> S) (idm : F) (mapping : F -> S -> S) (comp : F -> F -> F).
  Definition hd_dims (n size : nat) (x : hld S F) : Prop := lz_dims n size (hd_data x) /\ hl_dims n (hd_tree x).
  Lemma kp_hld_step n size x o : hd_dims n size x -> keeps (hld_step e op idm mapping comp x o) (fun r => hd_dims n size r.1).
  Proof.
    intros [H1 H2]. destruct o; unfold hld_step.
    - unfold apply_path, apply_path_fuel. kp1. eapply kp_bind; [apply (kp_rloop (fun s : nat * nat * lazytree S F => lz_dims n size s.2) (fun s : nat * nat * lazytree S F => lz_dims n size s.2)); [|exact H1]|].
      + intros [[a b] t] Ht. cbn in Ht. unfold apply_path_step. kp1. kp1; [|kp; exact Ht]. destruct p as [a' b']. kp1. kp1. kp1. eapply kp_bind; [apply kp_lt_apply_range, Ht|]. intros t' Ht'. kp. exact Ht'.
      + intros [[a b] t] Ht. cbn in Ht. cbv iota beta. kp1. kp1. kp1. kp1. kp1. kp1. kp1. eapply kp_bind; [apply kp_lt_apply_range, Ht|]. intros t' Ht'. kp. split; assumption.
    - unfold path_prod, path_prod_fuel. kp1. eapply kp_bind; [apply (kp_rloop (fun s : nat * nat * lazytree S F * S => lz_dims n size s.1.2) (fun s : nat * nat * lazytree S F * S => lz_dims n size s.1.2)); [|exact H1]|].
      + intros [[[a b] t] acc] Ht. cbn in Ht. unfold path_prod_step. kp1. kp1; [|kp; exact Ht]. destruct p as [a' b']. kp1. kp1. kp1. eapply kp_bind; [apply kp_lt_prod, Ht|]. intros [t' z] Ht'. kp. exact Ht'.
      + intros [[[a b] t] acc] Ht. cbn in Ht. cbv iota beta. kp1. kp1. kp1. kp1. kp1. kp1. kp1. eapply kp_bind; [apply kp_lt_prod, Ht|]. intros [t' z] Ht'. kp. split; assumption.
    - unfold apply_subtree. kp1. kp1. kp1. kp1. kp1. eapply kp_bind; [apply kp_lt_apply_range, H1|]. intros t Ht. kp. split; assumption.
    - unfold subtree_prod. kp1. kp1. kp1. kp1. kp1. eapply kp_bind; [apply kp_lt_prod, H1|]. intros [t z] Ht. kp. split; assumption.
    - unfold hld_get. kp1. kp1. kp1. eapply kp_bind; [apply kp_lt_get, H1|]. intros [t z] Ht. kp. split; assumption.
    - unfold hld_set. kp1. kp1. kp1. eapply kp_bind; [apply kp_lt_set, H1|]. intros t Ht. kp. split; assumption.
    - eapply kp_bind; [apply kp_lt_step, H1|]. intros [t z] Ht. kp. split; assumption.
  Qed.
End hld.


(** Adjacency lists *)
Lemma cells_insert {A} (g : list (list A)) u gu x : g !! u = Some gu -> cells (<[u:=gu ++ [x]]> g) = S (cells g).
Proof.
  unfold cells. revert u. induction g as [|a g IH]; intros [|u] H; cbn in H; [discriminate..| |].
  - injection H as ->. cbn. rewrite app_length. cbn. lia.
  - change (<[S u:=gu ++ [x]]> (a :: g)) with (a :: <[u:=gu ++ [x]]> g). cbn [sum_list_with]. rewrite (IH u H). lia.
Qed.
Lemma kp_cells {A} (g : list (list A)) u (x : A) : keeps (gu ← vget g u; vset g u (gu ++ [x])) (fun g' => length g' = length g /\ cells g' = S (cells g)).
Proof.
  intros g' E. apply rbind_ok_inv in E as (gu & E1 & E2). apply vget_ok_iff in E1. unfold vset in E2. destruct (decide _); [|discriminate]. injection E2 as <-. split; [apply insert_length|apply cells_insert; exact E1].
Qed.
Lemma cells_replicate {A} n : cells (replicate n ([] : list A)) = 0.
Proof. unfold cells. induction n; [reflexivity|assumption]. Qed.

(** Dinic *)
Definition dn_dims (n m : nat) (d : dinic) : Prop := dn_n d = n /\ length (dn_e d) = 2 * m /\ length (dn_g d) = n /\ cells (dn_g d) = 2 * m /\ length (dn_cur d) = n /\ length (dn_h d) = n.
Lemma kp_add_edge n m d u v c : dn_dims n m d -> keeps (dn_add_edge d u v c) (dn_dims n (S m)).
Proof.
  intros (H1 & H2 & H3 & H4 & H5 & H6) d' E. unfold dn_add_edge in E. apply rbind_ok_inv in E as (gu & E1 & E). apply rbind_ok_inv in E as (g & E2 & E). cbv zeta in E. apply rbind_ok_inv in E as (gv & E3 & E). apply rbind_ok_inv in E as (g' & E4 & E). injection E as <-.
  destruct (kp_cells (dn_g d) u (length (dn_e d)) g) as [A1 A2]; [rewrite E1; exact E2|].
  destruct (kp_cells g v (length (dn_e d ++ [(v, c)])) g') as [B1 B2]; [rewrite E3; exact E4|].
  unfold dn_dims. cbn [dn_n dn_e dn_g dn_cur dn_h]. rewrite !app_length. cbn [length]. split_and!; lia.
Qed.
Lemma kp_bfs_scan e u t n : forall es h q, length h = n -> keeps (bfs_scan e u t es h q) (fun r => length r.2.1 = n).
Proof.
  induction es as [|i es IH]; intros h q H; cbn [bfs_scan]; [kp; exact H|]. kp1. destruct a as [v c]. kp1; [|apply IH, H]. kp1. kp1; [|apply IH, H]. kp1. kp1. kp1. kp1; [kp; lia|]. apply IH. lia.
Qed.
Lemma kp_bfs e g n h s t : length h = n -> keeps (bfs e g h s t) (fun r => length r.2 = n).
Proof.
  intros H. unfold bfs. kp1. rewrite replicate_length in *. apply (kp_rloop (fun x : list Z * list nat => length x.1 = n) (fun r : bool * list Z => length r.2 = n)); [|cbn; lia].
  intros [h' q] H'. cbn in H'. unfold bfs_step. destruct q as [|u q]; [kp; exact H'|]. kp1. eapply kp_bind; [apply kp_bfs_scan, H'|]. intros [b [h2 q2]] H2. cbn in H2. kp; exact H2.
Qed.
Lemma kp_fdfs T g h t a b fuel : forall u f e cur, length e = a -> length cur = b -> keeps (fdfs fuel T g h t u f e cur) (fun r => length r.2.1 = a /\ length r.2.2 = b).
Proof.
  induction fuel as [|fuel IH]; intros u f e cur He Hc; cbn [fdfs]; [apply kp_diverge|]. kp1; [kp; auto|]. kp1. kp1.
  eapply kp_bind; [apply (kp_rloop (fun x : Z * nat * list dedge * list nat => length x.1.2 = a /\ length x.2 = b) (fun r : Z * (list dedge * list nat) => length r.2.1 = a /\ length r.2.2 = b)); [|cbn; auto]|].
  - intros [[[r i] e'] cur'] [H1 H2]. cbn in H1, H2. unfold dfs_step. kp1. kp1; [|kp; auto]. kp1. kp1. destruct a4 as [v c].
    assert (K : forall k : bool -> res (Z * nat * list dedge * list nat + Z * (list dedge * list nat)), (forall x, keeps (k x) (fun r => match r with inl s' => length s'.1.2 = a /\ length s'.2 = b | inr r => length r.2.1 = a /\ length r.2.2 = b end)) ->
      keeps ((if (0 <? c)%Z then hv ← vget h v; hu ← vget h u; d ← iadd i32 hu 1; Ok (hv =? d)%Z else Ok false) ≫= k) (fun r => match r with inl s' => length s'.1.2 = a /\ length s'.2 = b | inr r => length r.2.1 = a /\ length r.2.2 = b end)) by (intros k Hk; apply kp_bind0; exact Hk).
    apply K. clear K. intros [|]; [|kp; cbn; lia]. eapply kp_bind; [apply IH; [exact H1|exact H2]|]. intros [x [e2 c2]] [G1 G2]. cbn in G1, G2. cbv iota beta. kp; cbn; lia.
  - intros [r [e' cur']] [H1 H2]. kp. auto.
Qed.
Lemma kp_dn_step T n m d o : dn_dims n m d -> keeps (dn_step T d o) (fun r => dn_dims n (match o with DnEdge _ _ _ => S m | DnFlow _ _ => m end) r.1).
Proof.
  intros H. destruct o; unfold dn_step; [eapply kp_bind; [apply kp_add_edge, H|]; intros d' H'; kp; exact H'|].
  unfold dn_max_flow. kp1. kp1. kp1. kp1. kp1. eapply kp_bind; [apply (kp_rloop (fun x : Z * dinic => dn_dims n m x.2) (fun x : Z * dinic => dn_dims n m x.2)); [|exact H]|].
  - intros [ans d'] (H1 & H2 & H3 & H4 & H5 & H6). cbn [snd] in H1, H2, H3, H4, H5, H6. unfold flow_step. eapply kp_bind; [apply (kp_bfs _ _ n); exact H6|]. intros [b h] Hh. cbn in Hh. cbv iota beta. destruct b.
    + cbv zeta. eapply kp_bind; [exact (kp_fdfs T (dn_g d') h t (2 * m) n _ s _ _ _ H2 (eq_trans (replicate_length _ _) H5))|]. intros [x [e2 c2]] [G1 G2]. cbn in G1, G2. kp. split_and!; cbn; assumption.
    + kp. split_and!; cbn; assumption.
  - intros [ans d'] H'. kp. exact H'.
Qed.

(** BipartiteMatching *)
Definition bm_dims (n k m : nat) (b : bm) : Prop := length (bm_g b) = n /\ cells (bm_g b) = m /\ length (bm_l b) = n /\ length (bm_r b) = k /\ length (bm_vis b) = n.
Definition m_dims (n k : nat) (s : mst) : Prop := length s.1.1 = n /\ length s.1.2 = n /\ length s.2 = k.
Lemma kp_take n k u v st : m_dims n k st -> keeps (take_edge u v st) (fun r => m_dims n k r.2).
Proof. destruct st as [[vis l] r]. intros (H1 & H2 & H3). unfold take_edge. kp. split_and!; cbn in *; lia. Qed.
Lemma kp_try n k rec u es : (forall w st, m_dims n k st -> keeps (rec w st) (fun r => m_dims n k r.2)) -> forall st, m_dims n k st -> keeps (try_edges rec u es st) (fun r => m_dims n k r.2).
Proof.
  intros Hr. induction es as [|v es IH]; intros st H; cbn [try_edges]; [kp; exact H|]. kp1. kp1. eapply kp_bind; [apply Hr, H|]. intros [b st'] H'. cbn in *. destruct b; [apply kp_take, H'|apply IH, H'].
Qed.
Lemma kp_mdfs n k g fuel : forall u st, m_dims n k st -> keeps (mdfs fuel g u st) (fun r => m_dims n k r.2).
Proof.
  induction fuel as [|fuel IH]; intros u [[vis l] r] (H1 & H2 & H3); cbn [mdfs]; [apply kp_diverge|]. cbn in H1, H2, H3. kp1. kp1; [kp; split_and!; assumption|]. kp1. kp1. kp1.
  destruct a1; [apply kp_take|apply kp_try; [exact IH|]]; split_and!; cbn; lia.
Qed.
Lemma kp_solve n k m b : bm_dims n k m b -> keeps (bm_solve b) (fun r => bm_dims n k m r.1).
Proof.
  intros (H1 & H2 & H3 & H4 & H5). unfold bm_solve. eapply kp_bind; [apply (kp_rloop (m_dims n k) (m_dims n k)); [|split_and!; cbn; assumption]|].
  - intros [[vis l] r] (A1 & A2 & A3). cbn in *. unfold solve_step. eapply kp_bind; [apply (kp_rfor (fun s : bool * mst => m_dims n k s.2)); [|split_and!; cbn; rewrite ?replicate_length; assumption]|].
    + intros i [ok [[vis' l'] r']] H'. cbn in H'. unfold round_body. kp1. kp1; [kp; exact H'|]. eapply kp_bind; [apply kp_mdfs, H'|]. intros [x st] Hx. kp. exact Hx.
    + intros [ok st] H'. cbn in *. destruct ok; kp; exact H'.
  - intros [[vis l] r] (A1 & A2 & A3). cbn in *. apply kp_bind0. intros ret. kp. split_and!; cbn; assumption.
Qed.
Lemma kp_bm_step n k m b o : bm_dims n k m b -> keeps (bm_step b o) (fun r => bm_dims n k (match o with BmEdge _ _ => S m | BmSolve => m end) r.1).
Proof.
  intros H. destruct o; unfold bm_step.
  - destruct H as (H1 & H2 & H3 & H4 & H5). intros x E. apply rbind_ok_inv in E as (b' & E & E'). injection E' as <-. unfold bm_add_edge in E. apply rbind_ok_inv in E as (es & E1 & E). apply rbind_ok_inv in E as (g & E2 & E). injection E as <-.
    destruct (kp_cells (bm_g b) u v g) as [A1 A2]; [rewrite E1; exact E2|]. unfold bm_dims. cbn [fst bm_g bm_l bm_r bm_vis]. split_and!; lia.
  - eapply kp_bind; [apply kp_solve, H|]. intros [b' r] H'. kp. exact H'.
Qed.

(** AhoCorasick *)
Definition ah_dims (N k : nat) (nodes : list node) : Prop := length nodes <= k /\ Forall (fun x => length (nd_next x) = N) nodes.
Lemma ah_get N k nodes p : ah_dims N k nodes -> keeps (vget nodes p) (fun x => length (nd_next x) = N).
Proof. intros [_ H] x E. apply vget_ok_iff in E. rewrite Forall_lookup in H. exact (H p x E). Qed.
Lemma ah_set N k nodes p x : ah_dims N k nodes -> length (nd_next x) = N -> keeps (vset nodes p x) (fun nodes' => ah_dims N k nodes' /\ length nodes' = length nodes).
Proof. intros [H1 H2] Hx. unfold vset. destruct (decide _); [|apply kp_panic]. apply kp_ok. split; [split; [rewrite insert_length; exact H1|apply Forall_insert; assumption]|apply insert_length]. Qed.
Lemma kp_insert_step off N k c st : ah_dims N k st.1 -> keeps (insert_step off N c st) (fun r => ah_dims N (S k) r.1).
Proof.
  destruct st as [nodes p]. cbn. intros H. unfold insert_step. kp1. eapply kp_bind; [apply (ah_get N k), H|]. intros x Hx. kp1.
  eapply (kp_bind _ _ (ah_dims N (S k))).
  - destruct (a0 =? 0).
    + kp1. eapply kp_bind; [apply (ah_set N k); [exact H|cbn; congruence]|]. intros nodes' [[H1 H2] _]. apply kp_ok. split; [rewrite app_length; cbn; lia|]. apply Forall_app. split; [exact H2|]. constructor; [apply replicate_length|constructor].
    + apply kp_ok. destruct H. split; [lia|assumption].
  - intros nodes' H'. kp1. kp1. kp. exact H'.
Qed.
Lemma kp_insert off N k a s i : ah_dims N k (ah_nodes a) -> keeps (aho_insert off N a s i) (fun a' => ah_dims N (k + length s) (ah_nodes a')).
Proof.
  intros H. unfold aho_insert. kp1. eapply (kp_bind _ _ (fun st : list node * nat => ah_dims N (k + length s) st.1)).
  - clear -H. assert (H' : ah_dims N k (ah_nodes a, 0).1) by exact H. clear H. revert k H'. generalize (ah_nodes a, 0). induction s as [|c s IH]; intros st k H; cbn [rfor length].
    + apply kp_ok. rewrite Nat.add_0_r. exact H.
    + eapply kp_bind; [apply kp_insert_step, H|]. intros st' H'. rewrite <- Nat.add_succ_comm. apply IH, H'.
  - intros [nodes p] H'. cbn in H'. eapply kp_bind; [apply (ah_get N (k + length s)), H'|]. intros x Hx. eapply kp_bind; [apply ah_set; [exact H'|exact Hx]|]. intros nodes' [H2 _]. kp. exact H2.
Qed.
Lemma kp_build N k fuel a : ah_dims N k (ah_nodes a) -> keeps (build_fuel N fuel a) (fun a' => ah_dims N k (ah_nodes a')).
Proof.
  intros H. unfold build_fuel. apply kp_bind0. intros q. eapply kp_bind; [apply (kp_rloop (fun st : list node * list nat => ah_dims N k st.1) (ah_dims N k)); [|exact H]|].
  - intros [nodes q'] H'. cbn in H'. unfold build_step. destruct q' as [|u q']; [kp; exact H'|]. eapply kp_bind; [apply (kp_rfor (fun st : list node * list nat => ah_dims N k st.1)); [|exact H']|].
    + intros i [nd q2] H2. cbn in H2. unfold build_edge. eapply kp_bind; [apply (ah_get N k), H2|]. intros x Hx. kp1. kp1. kp1. kp1.
      * kp1. eapply kp_bind; [apply (ah_set N k); [exact H2|cbn; congruence]|]. intros nd' [H3 _]. kp. exact H3.
      * eapply kp_bind; [apply (ah_get N k), H2|]. intros y Hy. eapply kp_bind; [apply (ah_set N k); [exact H2|exact Hy]|]. intros nd' [H3 _]. kp1. eapply kp_bind; [apply (ah_get N k), H3|]. intros y' Hy'. cbv zeta.
        eapply kp_bind; [apply (ah_set N k); [exact H3|exact Hy']|]. intros nd2 [H4 _]. kp. exact H4.
    + intros [nd q2] H2. kp. exact H2.
  - intros nodes H'. kp. exact H'.
Qed.
