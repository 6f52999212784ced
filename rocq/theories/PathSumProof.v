From Verif Require Import Prelude ArraySpec FenwickModel FenwickProof RangeAddProof TreeSpec TreeProof HldSpec HldProof TreeAgreeProof LiftModel LiftProof LiftProps EulerSpec EulerProof PathSumModel PathSumSpec.
From Coq Require Import Ring Ring_theory.

Lemma paths_exist g : is_tree g -> exists path : nat -> nat -> list nat, forall u v, u < length g -> v < length g -> is_path g u v (path u v).
Proof.
  intros T. assert (forall m, m <= length g -> exists path : nat -> nat -> list nat, forall u v, u < m -> v < length g -> is_path g u v (path u v)) as H; [|apply H; lia].
  induction m as [|m IH]; intros Hm; [exists (fun _ _ => []); lia|]. destruct IH as [path HP]; [lia|]. destruct (path_choice g T m ltac:(lia)) as [P0 H0].
  exists (fun u v => if decide (u = m) then P0 v else path u v). intros u v Hu Hv. destruct (decide (u = m)) as [->|Hne]; [apply H0; exact Hv|apply HP; [lia|exact Hv]].
Qed.

Section Proof.
  Context {T : Type} (zero one : T) (add mul sub : T -> T -> T) (opp : T -> T).
  Context (R : ring_theory zero one add mul sub opp (@eq T)).
  Add Ring TR : R.
  Notation P := (mprod zero add).
  Lemma ps_monoid : monoid_laws zero add.
  Proof. constructor; intros; ring. Qed.
  Lemma P_app l l' : P (l ++ l') = add (P l) (P l').
  Proof. apply (mprod_app _ _ ps_monoid). Qed.
  Lemma P_cons x l : P (x :: l) = add x (P l).
  Proof. change (x :: l) with ([x] ++ l). rewrite P_app. f_equal. cbn. ring. Qed.
  Lemma P_perm l l' : l ≡ₚ l' -> P l = P l'.
  Proof. induction 1 as [|x l l' _ IH|x y l|l1 l2 l3 _ IH1 _ IH2]; [reflexivity|rewrite !P_cons, IH; reflexivity|rewrite !P_cons; ring|congruence]. Qed.
  Lemma vals_app (w : list T) p q : vals zero w (p ++ q) = vals zero w p ++ vals zero w q.
  Proof. apply map_app. Qed.
  Lemma vals_same (w : list T) v y p : v ∉ p -> vals zero (<[v := y]> w) p = vals zero w p.
  Proof. induction p as [|x p IH]; intros H; [reflexivity|]. apply not_elem_of_cons in H as [H1 H2]. cbn. rewrite list_lookup_insert_ne by exact H1. f_equal. apply IH. exact H2. Qed.
  Lemma vals_add (w : list T) v y x p : NoDup p -> v ∈ p -> w !! v = Some y -> P (vals zero (<[v := add y x]> w) p) = add (P (vals zero w p)) x.
  Proof.
    intros N Hv Hy. apply elem_of_Permutation in Hv as [q E]. rewrite E in N. apply NoDup_cons in N as [N _].
    assert (V : forall w : list T, P (vals zero w p) = P (vals zero w (v :: q))) by (intros w0; apply P_perm, Permutation_map; exact E).
    rewrite !V. change (vals zero ?w0 (v :: q)) with (default zero (w0 !! v) :: vals zero w0 q). rewrite vals_same by exact N. rewrite list_lookup_insert by (eapply lookup_lt_Some; eauto). rewrite Hy. cbn [default]. unfold id. rewrite !P_cons. ring.
  Qed.

  Context (g : list (list nat)) (root : nat) (Tr : is_tree g) (Hr : root < length g) (Hn : (Z.of_nat (length g) < 2 ^ 64)%Z).
  Context (b : bl) (l : list (nat * nat)) (Eb : bl_from g root = Ok b) (To : tour g root b l).
  Context (path : nat -> nat -> list nat) (Hpath : forall u v, u < length g -> v < length g -> is_path g u v (path u v)).
  Notation n := (length g).

  Lemma root_member u v : u < n -> v < n -> (v ∈ path root u <-> ancestor g root v u).
  Proof.
    intros Hu Hv. destruct (tree_rtree g Tr root Hr) as (par & dep & Rt). rewrite (ancestor_iff _ _ _ _ Rt v u Hv Hu).
    rewrite (path_perm g root par dep Rt root u _ _ Hr Hu (Hpath root u Hr Hu) (pathp_chain _ _ _ _ Rt root u Hu (anc_root _ _ _ _ Rt u Hu))).
    rewrite (elem_seg _ _ _ _ Rt root u v Hu (anc_root _ _ _ _ Rt u Hu)). split; [tauto|]. intros H. split; [apply (anc_root _ _ _ _ Rt); exact Hv|exact H].
  Qed.
  Lemma times v : v < n -> exists i k, bl_tin b !! v = Some i /\ bl_tout b !! v = Some (i + k) /\ i < n /\ forall u j, u < n -> bl_tin b !! u = Some j -> (ancestor g root v u <-> i <= j < i + k).
  Proof.
    intros Hv. destruct (tour_at _ _ _ _ To v Hv) as (i & k & Hi & Ho & Hin). destruct (to_times _ _ _ _ To i v k Hi) as [T1 T2]. exists i, k. split; [exact T1|]. split; [exact T2|]. split; [exact Hin|].
    intros u j Hu Hj. destruct (to_block _ _ _ _ To i v k Hi) as [_ Bl]. destruct (tour_at _ _ _ _ To u Hu) as (j' & k' & Hj' & Hjo & _). destruct (to_times _ _ _ _ To j' u k' Hj') as [T3 _]. assert (j' = j) as -> by congruence. apply (Bl j u Hjo).
  Qed.

  Definition ps_inv (t : summer T) (w : list T) : Prop := ps_w t = w /\ length w = n /\ exists D, FInv zero add (ps_f t) D /\ length D = n /\
    forall u i, u < n -> bl_tin b !! u = Some i -> P (slice D 0 (i + 1)) = P (vals zero w (path root u)).
  Lemma ps_new_inv : ps_inv (ps_new zero n) (replicate n zero).
  Proof.
    split; [reflexivity|]. split; [apply replicate_length|]. exists (replicate n zero). split; [apply fw_new_inv, ps_monoid|]. split; [apply replicate_length|]. intros u i Hu _.
    unfold slice. rewrite drop_0, take_replicate, (mprod_replicate_e _ _ ps_monoid). symmetry. unfold vals. induction (path root u) as [|x p IH]; [reflexivity|]. cbn [map]. rewrite P_cons, IH.
    destruct (decide (x < n)); [rewrite lookup_replicate_2 by assumption|rewrite lookup_ge_None_2 by (rewrite replicate_length; lia)]; cbn; unfold id; ring.
  Qed.
  Lemma ps_add_ok t w v x y : ps_inv t w -> w !! v = Some y -> exists t', ps_add add opp b t v x = Ok t' /\ ps_inv t' (<[v := add y x]> w).
  Proof.
    intros (Ew & Lw & D & ID & LD & HD) Hy. pose proof (lookup_lt_Some _ _ _ Hy) as Hv. destruct (times v ltac:(lia)) as (i & k & T1 & T2 & Hi & Anc). unfold ps_add. rewrite Ew.
    rewrite (vget_ok _ _ _ Hy). cbn [mbind res_bind]. rewrite vset_ok by exact Hv. cbn [mbind res_bind]. rewrite (vget_ok _ _ _ T1). cbn [mbind res_bind].
    assert (U : forall x u, add x u = add x (add zero u)) by (intros; ring). assert (Cm : forall x y, add x y = add y x) by (intros; ring).
    destruct (add_ok zero add sub add ps_monoid _ _ ID i x Cm U) as (t1 & -> & I1). cbn [mbind res_bind]. rewrite (vget_ok _ _ _ T2). cbn [mbind res_bind].
    destruct (add_ok zero add sub add ps_monoid _ _ I1 (i + k) (opp x) Cm U) as (t2 & -> & I2). cbn [mbind res_bind]. eexists. split; [reflexivity|].
    split; [reflexivity|]. split; [rewrite insert_length; exact Lw|]. exists (bump add (bump add D i x) (i + k) (opp x)). split; [exact I2|]. split; [rewrite !bump_length; exact LD|].
    intros u j Hu Hj. pose proof (lookup_lt_Some _ _ _ Hj) as Hjn. rewrite !(bump_P zero one add mul sub opp R) by (rewrite ?bump_length; destruct (times u Hu) as (j' & _ & K & _ & K' & _); assert (j' = j) by congruence; lia).
    rewrite (HD u j Hu Hj). pose proof (Anc u j Hu Hj) as A. pose proof (root_member u v Hu ltac:(lia)) as M. destruct (Hpath root u Hr Hu) as [_ N].
    destruct (decide (v ∈ path root u)) as [Hin|Hin].
    - rewrite (vals_add w v y x _ N Hin Hy). apply M, A in Hin. destruct (Nat.ltb_spec i (j + 1)), (Nat.ltb_spec (i + k) (j + 1)); try lia; ring.
    - rewrite (vals_same w v _ _ Hin). assert (~ (i <= j < i + k)) as Hout by (intros K; apply Hin, M, A; exact K). destruct (Nat.ltb_spec i (j + 1)), (Nat.ltb_spec (i + k) (j + 1)); try lia; ring.
  Qed.
  Lemma ps_root_ok t w u : ps_inv t w -> u < n -> ps_root zero add b t u = Ok (P (vals zero w (path root u))).
  Proof.
    intros (Ew & Lw & D & ID & LD & HD) Hu. destruct (times u Hu) as (i & k & T1 & T2 & Hi & _). unfold ps_root. rewrite (vget_ok _ _ _ T1). cbn [mbind res_bind].
    rewrite (pref_ok zero add ps_monoid _ D ID) by (try (intros; ring); lia). f_equal. apply HD; assumption.
  Qed.
  Lemma ps_path_ok t w u v : ps_inv t w -> u < n -> v < n -> ps_path zero add sub b t u v = Ok (P (vals zero w (path u v))).
  Proof.
    intros I Hu Hv. pose proof I as (Ew & Lw & _). destruct (C21_lca g root Tr Hr Hn) as (b' & Eb' & L). assert (b' = b) as -> by congruence. destruct (L u v Hu Hv) as (c & Ec & Hc & Lc).
    unfold ps_path. rewrite Ec. cbn [mbind res_bind]. rewrite !(ps_root_ok t w) by assumption. cbn [mbind res_bind]. rewrite Ew. destruct (lookup_lt_is_Some_2 w c ltac:(lia)) as [y Hy]. rewrite (vget_ok _ _ _ Hy). cbn [mbind res_bind]. f_equal.
    destruct (tree_rtree g Tr root Hr) as (par & dep & Rt). apply (is_lca_iff _ _ _ _ Rt u v c Hu Hv Hc) in Lc.
    pose proof (split_lca g root par dep Rt u v c _ _ _ _ Hu Hv Lc (Hpath u v Hu Hv) (Hpath root u Hr Hu) (Hpath root v Hr Hv) (Hpath root c Hr Hc)) as S.
    assert (E : P (vals zero w (path u v ++ path root c ++ path root c)) = P (vals zero w (path root u ++ path root v ++ [c]))) by (apply P_perm, Permutation_map; exact S).
    rewrite !vals_app, !P_app in E. change (vals zero w [c]) with [default zero (w !! c)] in E. rewrite Hy in E. cbn in E.
    set (A := P (vals zero w (path u v))) in *. set (X := P (vals zero w (path root u))) in *. set (Y := P (vals zero w (path root v))) in *. set (Z := P (vals zero w (path root c))) in *.
    transitivity (sub (sub (add X (add Y (add y zero))) Z) Z); [ring|]. rewrite <- E. ring.
  Qed.
  Lemma lca_out u v : n <= u \/ n <= v -> bl_lca b u v = Panic.
  Proof. intros H. destruct (C20_panics g root) as [_ L]. destruct (L Tr Hr Hn) as (b' & Eb' & L'). assert (b' = b) as -> by congruence. apply (L' u v H). Qed.
  Lemma ps_step_ok t w o : ps_inv t w -> (ps_step zero add sub opp b t o = Panic /\ ps_spec zero add root path w o = Panic) \/
    exists t' w' out, ps_step zero add sub opp b t o = Ok (t', out) /\ ps_spec zero add root path w o = Ok (w', out) /\ ps_inv t' w'.
  Proof.
    intros I. pose proof I as (Ew & Lw & _). destruct o as [v x|v|u|u v]; cbn [ps_step ps_spec].
    - destruct (w !! v) as [y|] eqn:Hy.
      + right. destruct (ps_add_ok t w v x y I Hy) as (t' & -> & I'). cbn [mbind res_bind]. eauto 8.
      + left. unfold ps_add. rewrite Ew. apply lookup_ge_None in Hy. rewrite (vget_panic w) by exact Hy. auto.
    - rewrite Ew. destruct (w !! v) as [y|] eqn:Hy; [right; rewrite (vget_ok _ _ _ Hy); cbn [mbind res_bind]; eauto 8|left; apply lookup_ge_None in Hy; rewrite (vget_panic w) by exact Hy; auto].
    - rewrite Lw. destruct (Nat.ltb_spec u n) as [Hu|Hu]; [right; rewrite (ps_root_ok t w u I Hu); cbn [mbind res_bind]; eauto 8|]. left. unfold ps_root. rewrite vget_panic by (rewrite (to_in _ _ _ _ To); exact Hu). auto.
    - rewrite Lw. destruct (Nat.ltb_spec u n) as [Hu|Hu], (Nat.ltb_spec v n) as [Hv|Hv]; cbn [andb]; [right; rewrite (ps_path_ok t w u v I Hu Hv); cbn [mbind res_bind]; eauto 8|..]; (left; unfold ps_path; rewrite lca_out by lia; auto).
  Qed.
  Lemma ps_run_ok ops : forall t w, ps_inv t w -> fmap snd (run (ps_step zero add sub opp b) t ops) = fmap snd (run (ps_spec zero add root path) w ops).
  Proof.
    induction ops as [|o ops IH]; intros t w I; [reflexivity|]. cbn [run]. destruct (ps_step_ok t w o I) as [[-> ->]|(t' & w' & out & -> & -> & I')]; [reflexivity|]. cbn [mbind res_bind]. specialize (IH t' w' I').
    destruct (run (ps_step zero add sub opp b) t' ops) as [[t2 o2]| |], (run (ps_spec zero add root path) w' ops) as [[w2 o3]| |]; cbn in *; congruence.
  Qed.
End Proof.
