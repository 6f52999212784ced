(** When Tarjan's algorithm panics. *)
From Verif Require Import Prelude IntModel SccModel SccSpec DinicProof.
Open Scope Z_scope.

(** Returns with [P], or panics; does not run out of fuel. *)
Definition okp {A} (r : res A) (P : A -> Prop) : Prop := match r with Ok a => P a | Panic => True | Diverge => False end.
Lemma okp_bind {A B} (r : res A) (k : A -> res B) (P : A -> Prop) (Q : B -> Prop) :
  okp r P -> (forall a, P a -> okp (k a) Q) -> okp (a ← r; k a) Q.
Proof. destruct r; cbn; auto. Qed.
Lemma okp_mono {A} (r : res A) (P Q : A -> Prop) : okp r P -> (forall a, P a -> Q a) -> okp r Q.
Proof. destruct r; cbn; auto. Qed.
Lemma okp_vget {A} (l : list A) i : okp (vget l i) (fun a => l !! i = Some a).
Proof. unfold vget. destruct (l !! i); cbn; auto. Qed.
Lemma okp_vset {A} (l : list A) i x : okp (vset l i x) (fun l' => l' = <[i := x]> l /\ (i < length l)%nat).
Proof.
  destruct (decide (i < length l)%nat); [rewrite vset_ok by assumption; cbn; auto|]. rewrite vset_panic by lia. exact I.
Qed.
Lemma okp_rfor {A S} (xs : list A) (body : A -> S -> res S) (I : list A -> S -> Prop) s : I [] s ->
  (forall dn x rest s, xs = dn ++ x :: rest -> I dn s -> okp (body x s) (I (dn ++ [x]))) -> okp (rfor xs body s) (I xs).
Proof.
  intros H0 Hs. enough (forall rest dn s, xs = dn ++ rest -> I dn s -> okp (rfor rest body s) (I xs)) by (apply (H xs []); auto).
  induction rest as [|x rest IH]; intros dn s1 E Hi; cbn [rfor].
  - cbn. rewrite app_nil_r in E. congruence.
  - eapply okp_bind; [eapply Hs; eassumption|]. intros s2 H2. eapply (IH (dn ++ [x])); [rewrite <- app_assoc; exact E|exact H2].
Qed.

Section panic.
  Context (g : list (list nat)) (n : nat) (Hn : length g = n).
  Notation od st x := (hl (tj_ord st) x).
  Notation visited st x := (0 <= hl (tj_ord st) x).
  Definition fine (x : nat) : Prop := forall z, edge g x z -> (z < n)%nat.
  Record winv (st : tj) : Prop := {
    wi_len : length (tj_ord st) = n;
    wi_pos : 0 <= tj_pos st <= 2 ^ 31 - 1;
    wi_cnt : tj_pos st = Z.of_nat n - Z.of_nat (unset (tj_ord st));
    wi_ord : forall x, -1 <= od st x }.
  (** st' comes after st: what is new is fine, except possibly u. *)
  Record after (ex : nat -> Prop) (st st' : tj) : Prop := {
    af_inv : winv st';
    af_old : forall x, visited st x -> visited st' x;
    af_cnt : (unset (tj_ord st') <= unset (tj_ord st))%nat;
    af_new : forall x, visited st' x -> ~ visited st x -> ~ ex x -> fine x }.

  Lemma after_refl ex st : winv st -> after ex st st.
  Proof. intros H. split; auto. contradiction. Qed.
  Lemma after_trans ex a b c : after ex a b -> after (fun _ => False) b c -> after ex a c.
  Proof.
    intros [I1 O1 C1 N1] [I2 O2 C2 N2]. split; auto; [lia|]. intros x H1 H2 H3. destruct (decide (visited b x)) as [H|H]; [apply N1; auto|].
    apply N2; auto.
  Qed.

  Lemma enter_p u st : winv st -> od st u = -1 -> okp (tj_enter u st) (fun st' => after (fun x => x = u) st st' /\ visited st' u /\ (u < n)%nat /\
    S (unset (tj_ord st')) = unset (tj_ord st)).
  Proof.
    intros [L P C O] Hu. unfold tj_enter.
    eapply okp_bind; [apply okp_vset|]. intros ord [-> Hlt].
    eapply okp_bind; [apply okp_vset|]. intros low [-> _].
    destruct (iadd i32 (tj_pos st) 1) as [pos| |] eqn:Ep; cbn [mbind res_bind]; [|exact I|unfold iadd, chk in Ep; destruct (_ && _) in Ep; discriminate].
    apply chk_inv in Ep as [-> Hp].
    eapply okp_bind; [apply okp_vset|]. intros ons [-> _].
    pose proof (unset_insert (tj_ord st) u (tj_pos st) Hu ltac:(lia) ltac:(lia)) as Hun. cbn [okp tj_ord].
    unfold in_ty, it_min, it_max, i32 in Hp; cbn in Hp.
    split; [|split; [rewrite hl_insert by lia; rewrite decide_True by done; lia|split; [lia|exact Hun]]].
    split; cbn [tj_ord].
    - split; cbn [tj_ord tj_pos]; [rewrite insert_length; exact L|lia|lia|]. intros x. rewrite hl_insert by lia. pose proof (O x). case_decide; lia.
    - intros x Hx. rewrite hl_insert by lia. case_decide; lia.
    - lia.
    - intros x Hx Hx' Hne. rewrite hl_insert in Hx by lia. rewrite decide_False in Hx by done. contradiction.
  Qed.

  Lemma pop_p u stk ons comp : okp (pop_comp u stk ons comp) (fun _ => True).
  Proof.
    revert ons comp. induction stk as [|v stk IH]; intros ons comp; cbn [pop_comp]; [exact I|].
    eapply okp_bind; [apply okp_vset|]. intros ons' _. cbn zeta. destruct (u =? v)%nat; [exact I|apply IH].
  Qed.
  Lemma leave_p u st : okp (tj_leave u st) (fun st' => tj_ord st' = tj_ord st /\ tj_pos st' = tj_pos st).
  Proof.
    unfold tj_leave. eapply okp_bind; [apply okp_vget|]. intros lu _. eapply okp_bind; [apply okp_vget|]. intros ou _.
    destruct (lu =? ou); [|cbn; auto]. eapply okp_bind; [apply pop_p|]. intros [[a b] c] _. cbn. auto.
  Qed.

  Lemma dfs_p : forall fuel u st, winv st -> od st u = -1 -> (unset (tj_ord st) < fuel)%nat ->
    okp (tdfs fuel g u st) (fun st' => after (fun _ => False) st st' /\ visited st' u).
  Proof.
    induction fuel as [|fuel IH]; intros u st W Hu Hf; [lia|]. cbn [tdfs].
    eapply okp_bind; [apply enter_p; assumption|]. intros st1 (A1 & V1 & Hun & U1).
    eapply okp_bind; [apply okp_vget|]. intros es Hes.
    eapply okp_bind.
    { apply (okp_rfor es _ (fun dn st2 => after (fun _ => False) st1 st2 /\ forall z, z ∈ dn -> (z < n)%nat)).
      - split; [apply after_refl, A1|]. intros z Hz. apply elem_of_nil in Hz. done.
      - intros dn v rest st2 E [A2 D2]. unfold edge_body.
        eapply okp_bind; [apply okp_vget|]. intros o Ho.
        assert (v < n)%nat as Hv by (apply lookup_lt_Some in Ho; rewrite (wi_len _ (af_inv _ _ _ A2)) in Ho; exact Ho).
        assert (forall z, z ∈ dn ++ [v] -> (z < n)%nat) as D3.
        { intros z [Hz|Hz]%elem_of_app; [auto|]. apply elem_of_list_singleton in Hz as ->. exact Hv. }
        eapply (okp_bind _ _ (fun st3 => after (fun _ => False) st1 st3)).
        { destruct (o =? -1) eqn:Eo; [|exact A2]. apply Z.eqb_eq in Eo. eapply okp_mono.
          - apply IH; [apply A2|unfold hl; rewrite Ho; exact Eo|]. pose proof (af_cnt _ _ _ A2). lia.
          - cbn beta. intros st3 [A3 _]. eapply after_trans; eassumption. }
        intros st3 A3. eapply okp_bind; [apply okp_vget|]. intros b _. destruct b; [|cbn; auto].
        eapply okp_bind; [apply okp_vget|]. intros lu _. eapply okp_bind; [apply okp_vget|]. intros lv _.
        eapply okp_bind; [apply okp_vset|]. intros low _. cbn. split; [|exact D3].
        destruct A3 as [[W1 W2 W3 W4] O3 C3 N3]. split; [split|..]; assumption. }
    cbn beta. intros st2 [A2 D2]. eapply okp_mono; [apply leave_p|]. cbn beta. intros st3 [E1 E2].
    assert (fine u) as Hfu by (intros z (es' & Hes' & Hz); apply D2; congruence).
    destruct A1 as [[W1 W1' W1'' W1'''] O1 C1 N1], A2 as [[W2 W2' W2'' W2'''] O2 C2 N2]. split.
    - split.
      + split; rewrite ?E1, ?E2; assumption.
      + intros x Hx. rewrite E1. auto.
      + rewrite E1. lia.
      + intros x Hx Hx' _. rewrite E1 in Hx. destruct (decide (x = u)) as [->|Hne]; [exact Hfu|].
        destruct (decide (visited st1 x)) as [H|H]; [apply N1; auto|apply N2; auto].
    - rewrite E1. apply O2, V1.
  Qed.

  Lemma visit_p : okp (rfor (range 0 n) (fun i st =>
         o ← vget (tj_ord st) i; if o =? -1 then tdfs (S n) g i st else Ok st) (tj_new n))
    (fun st => winv st /\ (forall x, (x < n)%nat -> visited st x) /\ forall x, visited st x -> fine x).
  Proof.
    assert (forall x, hl (replicate n (-1)) x = -1) as Hh.
    { intros x. unfold hl. destruct (replicate n (-1) !! x) eqn:E; [apply lookup_replicate in E; lia|reflexivity]. }
    assert (forall k, unset (replicate k (-1)) = k) as Hc.
    { intros k. unfold unset. induction k as [|k IHk]; [reflexivity|]. cbn [replicate]. rewrite filter_cons_True by done. cbn [length]. congruence. }
    eapply okp_mono.
    - apply (okp_rfor (range 0 n) _ (fun dn st => winv st /\ (forall x, x ∈ dn -> visited st x) /\ forall x, visited st x -> fine x)).
      + split; [|split].
        * split; cbn [tj_new tj_ord tj_pos]; [apply replicate_length|lia|rewrite Hc; lia|]. intros x. rewrite Hh. lia.
        * intros x Hx. apply elem_of_nil in Hx. done.
        * intros x Hx. cbn [tj_new tj_ord] in Hx. rewrite Hh in Hx. lia.
      + intros dn i rest st E (W & D & F). eapply okp_bind; [apply okp_vget|]. intros o Ho. destruct (o =? -1) eqn:Eo.
        * apply Z.eqb_eq in Eo. eapply okp_mono; [apply dfs_p; [exact W|unfold hl; rewrite Ho; exact Eo|]|].
          { pose proof (unset_le (tj_ord st)). rewrite (wi_len _ W) in H. lia. }
          cbn beta. intros st' [[W' O' C' N'] V']. split; [exact W'|]. split.
          -- intros x [Hx|Hx]%elem_of_app; [auto|]. apply elem_of_list_singleton in Hx as ->. exact V'.
          -- intros x Hx. destruct (decide (visited st x)) as [H|H]; auto.
        * apply Z.eqb_neq in Eo. cbn. split; [exact W|]. split; [|exact F]. intros x [Hx|Hx]%elem_of_app; [auto|]. apply elem_of_list_singleton in Hx as ->.
          pose proof (wi_ord _ W i) as H. unfold hl in *. rewrite Ho in *. lia.
    - cbn beta. intros st (W & D & F). split; [exact W|]. split; [|exact F]. intros x Hx. apply D. unfold range. apply elem_of_seq. lia.
  Qed.

  Lemma unset_0 (h : list Z) : (forall x, (x < length h)%nat -> 0 <= hl h x) -> unset h = 0%nat.
  Proof.
    unfold unset. induction h as [|z h IH]; intros H; [reflexivity|]. rewrite filter_cons_False.
    - apply IH. intros x Hx. apply (H (S x)). cbn. lia.
    - intros ->. specialize (H 0%nat). unfold hl in H. cbn in H. lia.
  Qed.

  Lemma scc_p : okp (scc g) (fun _ => Z.of_nat n <= 2 ^ 31 - 1 /\ forall u v, edge g u v -> (v < n)%nat).
  Proof.
    unfold scc. rewrite Hn. cbn zeta. eapply okp_bind; [apply visit_p|]. cbn beta. intros st (W & D & F).
    eapply okp_bind.
    { apply (okp_rfor _ _ (fun _ _ => True)); [exact I|]. intros dn ic rest s _ _.
      eapply okp_mono; [apply (okp_rfor _ _ (fun _ _ => True)); [exact I|]|auto]. intros dn' x rest' s' _ _.
      eapply okp_mono; [apply okp_vset|auto]. }
    intros col _. cbn. split.
    - pose proof (wi_cnt _ W) as Hc. pose proof (wi_pos _ W) as Hp. rewrite unset_0 in Hc; [lia|]. rewrite (wi_len _ W). exact D.
    - intros u v He. apply (F u); [|exact He]. apply D. destruct He as (es & He & _). apply lookup_lt_Some in He. lia.
  Qed.
End panic.
Close Scope Z_scope.
