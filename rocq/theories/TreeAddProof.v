From Verif Require Import Prelude ArraySpec FenwickModel FenwickProof RangeAddProof TreeSpec TreeProof HldSpec HldProof TreeAgreeProof LiftModel LiftProof LiftProps EulerSpec EulerProof PathSumProof TreeAddModel TreeAddSpec.
From Coq Require Import Ring Ring_theory.

Section Proof.
  Context {T : Type} (zero one : T) (add mul sub : T -> T -> T) (opp : T -> T).
  Context (R : ring_theory zero one add mul sub opp (@eq T)).
  Add Ring TR : R.
  Notation P := (mprod zero add).
  Local Notation Pm := (ps_monoid zero one add mul sub opp R).
  (** x as often as z occurs *)
  Definition ind (z : nat) (x : T) (p : list nat) : T := P (map (fun y => if decide (y = z) then x else zero) p).
  Lemma ind_app z x p q : ind z x (p ++ q) = add (ind z x p) (ind z x q).
  Proof. unfold ind. rewrite map_app. apply (P_app zero one add mul sub opp R). Qed.
  Lemma ind_cons z x y p : ind z x (y :: p) = add (if decide (y = z) then x else zero) (ind z x p).
  Proof. apply (P_cons zero one add mul sub opp R). Qed.
  Lemma ind_perm z x p q : p ≡ₚ q -> ind z x p = ind z x q.
  Proof. intros H. apply (P_perm zero one add mul sub opp R), Permutation_map, H. Qed.
  Lemma ind_nodup z x p : NoDup p -> ind z x p = if decide (z ∈ p) then x else zero.
  Proof.
    induction 1 as [|y p Hy N IH]; [destruct (decide (z ∈ [])) as [H|]; [inversion H|reflexivity]|]. rewrite ind_cons, IH. destruct (decide (y = z)) as [->|Ne].
    - rewrite (decide_False (P := z ∈ p)) by exact Hy. rewrite (decide_True (P := z ∈ z :: p)) by left. ring.
    - destruct (decide (z ∈ p)) as [H|H]; [rewrite (decide_True (P := z ∈ y :: p)) by (right; exact H)|rewrite (decide_False (P := z ∈ y :: p)) by (rewrite elem_of_cons; intuition congruence)]; ring.
  Qed.

  Context (g : list (list nat)) (root : nat) (Tr : is_tree g) (Hr : root < length g) (Hn : (Z.of_nat (length g) < 2 ^ 64)%Z).
  Context (b : bl) (l : list (nat * nat)) (Eb : bl_from g root = Ok b) (To : tour g root b l).
  Context (path : nat -> nat -> list nat) (Hpath : forall u v, u < length g -> v < length g -> is_path g u v (path u v)).
  Notation n := (length g).

  Lemma times' v : v < n -> exists i k, bl_tin b !! v = Some i /\ bl_tout b !! v = Some (i + k) /\ i < n /\ i + k <= n /\
    forall u j, u < n -> bl_tin b !! u = Some j -> (v ∈ path root u <-> i <= j < i + k).
  Proof.
    intros Hv. destruct (tour_at _ _ _ _ To v Hv) as (i & k & Hi & Ho & Hin). destruct (to_times _ _ _ _ To i v k Hi) as [T1 T2]. destruct (to_block _ _ _ _ To i v k Hi) as [Hik _].
    destruct (times g root b l To v Hv) as (i' & k' & T1' & T2' & _ & A). assert (i' = i) as -> by congruence. assert (k' = k) as -> by (rewrite T2 in T2'; injection T2'; lia).
    exists i, k. split_and!; try assumption. intros u j Hu Hj. rewrite (root_member g root Tr Hr path Hpath u v Hu Hv). apply A; assumption.
  Qed.

  Definition below (D : list T) (v : nat) : T := match bl_tin b !! v, bl_tout b !! v with Some i, Some j => sub (P (slice D 0 j)) (P (slice D 0 i)) | _, _ => zero end.
  Definition before (D : list T) (v : nat) : T := match bl_tin b !! v with Some i => P (slice D 0 (i + 1)) | None => zero end.
  Lemma below_bump D u j x v : length D = n -> u < n -> v < n -> bl_tin b !! u = Some j -> below (bump add D j x) v = add (below D v) (if decide (v ∈ path root u) then x else zero).
  Proof.
    intros L Hu Hv Hj. destruct (times' v Hv) as (i & k & T1 & T2 & Hi & Hik & A). unfold below. rewrite T1, T2. rewrite !(bump_P zero one add mul sub opp R) by lia. specialize (A u j Hu Hj).
    destruct (decide (v ∈ path root u)) as [H|H]; rewrite A in H; destruct (Nat.ltb_spec j (i + k)), (Nat.ltb_spec j i); try lia; ring.
  Qed.

  Definition ta_inv (t : adder T) (w : list T) : Prop := length w = n /\ length (ta_x t) = n /\ exists D E, FInv zero add (ta_f t) D /\ FInv zero add (ta_s t) E /\ length D = n /\ length E = n /\
    forall v, v < n -> w !! v = Some (add (add (below D v) (default zero (ta_x t !! v))) (before E v)).
  Lemma P_zeros k j : P (slice (replicate k zero) 0 j) = zero.
  Proof. unfold slice. rewrite drop_0, take_replicate. apply (mprod_replicate_e _ _ Pm). Qed.
  Lemma ta_new_inv : ta_inv (ta_new zero n) (replicate n zero).
  Proof.
    split; [apply replicate_length|]. split; [apply replicate_length|]. exists (replicate n zero), (replicate n zero). split_and!; try apply replicate_length; try apply fw_new_inv, Pm.
    intros v Hv. destruct (times' v Hv) as (i & k & T1 & T2 & _). unfold below, before. cbn [ta_x ta_new]. rewrite T1, T2, !P_zeros, lookup_replicate_2 by exact Hv. cbn. f_equal. unfold id. ring.
  Qed.
  Lemma Cm : forall x y, add x y = add y x. Proof. intros; ring. Qed.
  Lemma U : forall x u, add x u = add x (add zero u). Proof. intros; ring. Qed.
  Lemma where_look Q `{forall z, Decision (Q z)} x (w : list T) z y : w !! z = Some y -> add_where add Q x w !! z = Some (if decide (Q z) then add y x else y).
  Proof. intros H0. unfold add_where. rewrite list_lookup_imap, H0. reflexivity. Qed.

  Lemma ta_path_ok t w u v x : ta_inv t w -> u < n -> v < n -> exists t', ta_path add opp b t u v x = Ok t' /\ ta_inv t' (add_where add (fun z => z ∈ path u v) x w).
  Proof.
    intros (Lw & Lx & D & E & ID & IE & LD & LE & H) Hu Hv. destruct (C21_lca g root Tr Hr Hn) as (b' & Eb' & L). assert (b' = b) as -> by congruence. destruct (L u v Hu Hv) as (c & Ec & Hc & Lc).
    destruct (times' u Hu) as (iu & ku & Tu & _). destruct (times' v Hv) as (iv & kv & Tv & _). destruct (times' c Hc) as (ic & kc & Tc & _).
    unfold ta_path. rewrite Ec. cbn [mbind res_bind]. rewrite (vget_ok _ _ _ Tu). cbn [mbind res_bind].
    destruct (add_ok zero add sub add Pm _ _ ID iu x Cm U) as (t1 & -> & I1). cbn [mbind res_bind]. rewrite (vget_ok _ _ _ Tv). cbn [mbind res_bind].
    destruct (add_ok zero add sub add Pm _ _ I1 iv x Cm U) as (t2 & -> & I2). cbn [mbind res_bind]. rewrite (vget_ok _ _ _ Tc). cbn [mbind res_bind].
    destruct (add_ok zero add sub add Pm _ _ I2 ic (opp (add x x)) Cm U) as (t3 & -> & I3). cbn [mbind res_bind].
    destruct (lookup_lt_is_Some_2 (ta_x t) c ltac:(lia)) as [y Hy]. rewrite (vget_ok _ _ _ Hy). cbn [mbind res_bind]. rewrite vset_ok by lia. cbn [mbind res_bind]. eexists. split; [reflexivity|].
    split; [unfold add_where; rewrite imap_length; exact Lw|]. cbn [ta_x ta_f ta_s]. split; [rewrite insert_length; exact Lx|].
    exists (bump add (bump add (bump add D iu x) iv x) ic (opp (add x x))), E. split; [exact I3|]. split; [exact IE|]. split; [rewrite !bump_length; exact LD|]. split; [exact LE|].
    intros z Hz. rewrite (where_look _ x w z _ (H z Hz)). f_equal.
    rewrite (below_bump _ c ic) by (rewrite ?bump_length; assumption). rewrite (below_bump _ v iv) by (rewrite ?bump_length; assumption). rewrite (below_bump _ u iu) by assumption.
    destruct (tree_rtree g Tr root Hr) as (par & dep & Rt). apply (is_lca_iff _ _ _ _ Rt u v c Hu Hv Hc) in Lc.
    pose proof (split_lca g root par dep Rt u v c _ _ _ _ Hu Hv Lc (Hpath u v Hu Hv) (Hpath root u Hr Hu) (Hpath root v Hr Hv) (Hpath root c Hr Hc)) as S.
    apply (ind_perm z x) in S. rewrite !ind_app, ind_cons in S. rewrite !ind_nodup in S by (apply Hpath; assumption). change (ind z x []) with zero in S.
    set (W := before E z). set (B := below D z).
    assert (X : default zero (<[c:=add y x]> (ta_x t) !! z) = add (default zero (ta_x t !! z)) (if decide (c = z) then x else zero)).
    { destruct (decide (c = z)) as [<-|Ne]; [rewrite list_lookup_insert by lia; rewrite Hy; reflexivity|rewrite list_lookup_insert_ne by exact Ne; ring]. }
    rewrite X. set (V := default zero (ta_x t !! z)).
    set (a1 := if decide (z ∈ path root u) then x else zero) in *. set (a2 := if decide (z ∈ path root v) then x else zero) in *. set (a3 := if decide (c = z) then x else zero) in *.
    transitivity (add (add (add B V) W) (if decide (z ∈ path u v) then x else zero)); [destruct (decide (z ∈ path u v)); ring|].
    set (a0 := if decide (z ∈ path u v) then x else zero) in *.
    assert (a4 : (if decide (z ∈ path root c) then opp (add x x) else zero) = opp (add (if decide (z ∈ path root c) then x else zero) (if decide (z ∈ path root c) then x else zero))) by (destruct (decide (z ∈ path root c)); ring).
    rewrite a4. set (a5 := if decide (z ∈ path root c) then x else zero) in *.
    assert (S' : a0 = sub (add a1 (add a2 (add a3 zero))) (add a5 a5)) by (rewrite <- S; ring). rewrite S'. ring.
  Qed.
  Lemma ta_sub_ok t w v x : ta_inv t w -> v < n -> exists t', ta_sub add opp b t v x = Ok t' /\ ta_inv t' (add_where add (fun z => v ∈ path root z) x w).
  Proof.
    intros (Lw & Lx & D & E & ID & IE & LD & LE & H) Hv. destruct (times' v Hv) as (i & k & T1 & T2 & Hi & Hik & A). unfold ta_sub. rewrite (vget_ok _ _ _ T1). cbn [mbind res_bind].
    destruct (add_ok zero add sub add Pm _ _ IE i x Cm U) as (t1 & -> & I1). cbn [mbind res_bind]. rewrite (vget_ok _ _ _ T2). cbn [mbind res_bind].
    destruct (add_ok zero add sub add Pm _ _ I1 (i + k) (opp x) Cm U) as (t2 & -> & I2). cbn [mbind res_bind]. eexists. split; [reflexivity|].
    split; [unfold add_where; rewrite imap_length; exact Lw|]. cbn [ta_x ta_f ta_s]. split; [exact Lx|]. exists D, (bump add (bump add E i x) (i + k) (opp x)). split; [exact ID|]. split; [exact I2|]. split; [exact LD|]. split; [rewrite !bump_length; exact LE|].
    intros z Hz. rewrite (where_look _ x w z _ (H z Hz)). f_equal. destruct (times' z Hz) as (j & kz & Tz & _ & Hj & _). specialize (A z j Hz Tz). unfold before. rewrite Tz. rewrite !(bump_P zero one add mul sub opp R) by (rewrite ?bump_length; lia).
    destruct (decide (v ∈ path root z)) as [M|M]; rewrite A in M; destruct (Nat.ltb_spec i (j + 1)), (Nat.ltb_spec (i + k) (j + 1)); try lia; ring.
  Qed.
  Lemma ta_get_ok t w v : ta_inv t w -> v < n -> exists y, ta_get zero add sub b t v = Ok y /\ w !! v = Some y.
  Proof.
    intros (Lw & Lx & D & E & ID & IE & LD & LE & H) Hv. destruct (times' v Hv) as (i & k & T1 & T2 & Hi & Hik & _). unfold ta_get. rewrite (vget_ok _ _ _ T2). cbn [mbind res_bind].
    rewrite (pref_ok zero add Pm _ D ID) by (try apply Cm; lia). cbn [mbind res_bind]. rewrite (vget_ok _ _ _ T1). cbn [mbind res_bind]. rewrite (pref_ok zero add Pm _ D ID) by (try apply Cm; lia). cbn [mbind res_bind].
    destruct (lookup_lt_is_Some_2 (ta_x t) v ltac:(lia)) as [y Hy]. rewrite (vget_ok _ _ _ Hy). cbn [mbind res_bind]. rewrite (pref_ok zero add Pm _ E IE) by (try apply Cm; lia). cbn [mbind res_bind].
    eexists. split; [reflexivity|]. rewrite (H v Hv). unfold below, before. rewrite T1, T2, Hy. reflexivity.
  Qed.
  Lemma ta_step_ok t w o : ta_inv t w -> (ta_step zero add sub opp b t o = Panic /\ ta_spec add root path w o = Panic) \/
    exists t' w' out, ta_step zero add sub opp b t o = Ok (t', out) /\ ta_spec add root path w o = Ok (w', out) /\ ta_inv t' w'.
  Proof.
    intros I. pose proof I as (Lw & _). destruct o as [u v x|v x|v]; cbn [ta_step ta_spec].
    - rewrite Lw. destruct (Nat.ltb_spec u n) as [Hu|Hu], (Nat.ltb_spec v n) as [Hv|Hv]; cbn [andb]; [right; destruct (ta_path_ok t w u v x I Hu Hv) as (t' & -> & I'); cbn [mbind res_bind]; eauto 8|..];
        (left; unfold ta_path; rewrite (lca_out g root Tr Hr Hn b Eb) by lia; auto).
    - rewrite Lw. destruct (Nat.ltb_spec v n) as [Hv|Hv]; [right; destruct (ta_sub_ok t w v x I Hv) as (t' & -> & I'); cbn [mbind res_bind]; eauto 8|]. left. unfold ta_sub. rewrite (vget_panic (bl_tin b)) by (rewrite (to_in _ _ _ _ To); exact Hv). auto.
    - destruct (decide (v < n)) as [Hv|Hv].
      + right. destruct (ta_get_ok t w v I Hv) as (y & -> & ->). cbn [mbind res_bind]. eauto 8.
      + left. rewrite lookup_ge_None_2 by lia. unfold ta_get. rewrite (vget_panic (bl_tout b)) by (rewrite (to_out _ _ _ _ To); lia). auto.
  Qed.
  Lemma ta_run_ok ops : forall t w, ta_inv t w -> fmap snd (run (ta_step zero add sub opp b) t ops) = fmap snd (run (ta_spec add root path) w ops).
  Proof.
    induction ops as [|o ops IH]; intros t w I; [reflexivity|]. cbn [run]. destruct (ta_step_ok t w o I) as [[-> ->]|(t' & w' & out & -> & -> & I')]; [reflexivity|]. cbn [mbind res_bind]. specialize (IH t' w' I').
    destruct (run (ta_step zero add sub opp b) t' ops) as [[t2 o2]| |], (run (ta_spec add root path) w' ops) as [[w2 o3]| |]; cbn in *; congruence.
  Qed.
End Proof.
