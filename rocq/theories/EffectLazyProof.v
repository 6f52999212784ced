(** The searches of the lazy tree with an effectful predicate; the tree they leave behind. *)
From Verif Require Import Prelude UtilModel UtilProof ArraySpec SegtreeModel SegtreeProof LazySpec LazyModel LazyProof LazyTop
  BisectSpec EffectModel EffectProof.

Section Lazy.
  Context {S F : Type} (e : S) (op : S -> S -> S) (idm : F) (mapping : F -> S -> S) (comp : F -> F -> F).
  Context (L : monoid_laws e op) (ML : map_laws op idm mapping comp).
  Context {σ : Type} (g : σ -> S -> σ * option bool).

  (** A run of the search on a tree against the outcome of a bisection. *)
  Definition ends {X} (Q : X -> Prop) (h : nat -> nat) (o : σ * option nat) (r : res (X * σ * option nat)) : Prop :=
    exists x, r = Ok (x, o.1, h <$> o.2) /\ Q x.

  Section Tree.
    Context (log : nat) (A : nat -> S).
    Local Notation size := (2 ^ log).
    Local Notation R := (R e op idm mapping log).
    Local Notation Pr := (Pr e op).
    Local Notation node := (node log).
    Local Notation push_down := (R_push_down e op idm mapping comp L ML log).
    Local Notation read := (R_read e op idm mapping log).
    Local Notation good := (fun s => exists C, R s A all C).
    Local Notation askR l0 := (fun k st => g st (Pr A l0 (size + k))).
    Local Notation askL r0 := (fun j st => g st (Pr A (r0 - j) r0)).

    Lemma descend_right_fx l0 : size <= l0 -> forall h s C l sm st, R s A all C -> node h l ->
      (forall j x, node j x -> anc h l j x -> C j x) -> l0 <= l * 2 ^ h -> sm = Pr A l0 (l * 2 ^ h) ->
      exists o, bisect_u (askR l0) h st (l * 2 ^ h - size) ((l + 1) * 2 ^ h - size) o /\
        ends good (fun k => k) o (lt_descend_right_fx op idm mapping comp size g s l sm st).
    Proof.
      intros Hl00 h s C l sm st HR Hn Ha Hl0 Hsm. unfold lt_descend_right_fx.
      match goal with |- context [rloop _ ?st _] => set (step := st) end.
      assert (h < size + 1) as Hfuel by (apply height_lt; apply Hn).
      revert Hfuel. generalize (size + 1) as fuel. intros fuel. revert fuel s C l sm st HR Hn Ha Hl0 Hsm.
      induction h as [|h IH]; intros [|fuel] s C l sm st HR Hn Ha Hl0 Hsm Hfuel; [lia| |lia|]; cbn [rloop].
      - open1 step. assert (~ l < size) by (intros H; apply (node_inner _ _ _ Hn) in H; lia).
        destruct (Nat.ltb_spec l size); [lia|]. cbn [mbind res_bind]. rewrite nsub_ok by lia. cbn [mbind res_bind].
        rewrite Nat.pow_0_r, !Nat.mul_1_r in *. exists (st, Some (l - size)). split.
        + replace (l + 1 - size) with (l - size + 1) by lia. apply bu_done.
        + exists s. split; [reflexivity|eauto].
      - open1 step. assert (l < size) as Hls by (apply (node_inner _ _ _ Hn); lia).
        destruct (Nat.ltb_spec l size); [|lia].
        destruct (push_down s A C h l HR Hn Ha) as (s1 & C1 & -> & HR1 & Ha1). cbn [mbind res_bind].
        rewrite (read s1 A all C1 h (2 * l) HR1 (node_left _ _ _ Hn) I (Ha1 _ (or_introl eq_refl))). cbn [mbind res_bind].
        pose proof (pow2_pos h) as Hph. pose proof (node_left _ _ _ Hn) as NL. pose proof (node_right _ _ _ Hn) as NR.
        rewrite Nat.pow_succ_r' in *. subst sm.
        replace (l * (2 * 2 ^ h)) with (2 * l * 2 ^ h) in * by lia.
        replace ((l + 1) * (2 * 2 ^ h)) with ((2 * l + 2) * 2 ^ h) in * by lia.
        rewrite <- (Pr_app e op L) by nia.
        set (k := (2 * l + 1) * 2 ^ h - size).
        destruct NR as (_ & NR & _).
        assert (size + k = (2 * l + 1) * 2 ^ h) as Ek by (unfold k; nia).
        rewrite <- Ek. destruct NL as (NL1 & NL2 & NL3).
        destruct (g st (Pr A l0 (size + k))) as [st' [[|]|]] eqn:Hf.
        + destruct (IH fuel s1 C1 (2 * l + 1) (Pr A l0 ((2 * l + 1) * 2 ^ h)) st' HR1 (node_right _ _ _ Hn))
            as (o & B & E); [apply Ha1; auto|nia|reflexivity|lia|].
          rewrite Ek. exists o. split; [|exact E].
          eapply (bu_true _ _ _ st' _ k); [unfold k; nia|exact Hf|].
          replace ((2 * l + 2) * 2 ^ h) with ((2 * l + 1 + 1) * 2 ^ h) by nia. exact B.
        + destruct (IH fuel s1 C1 (2 * l) (Pr A l0 (2 * l * 2 ^ h)) st' HR1 (node_left _ _ _ Hn))
            as (o & B & E); [apply Ha1; auto|nia|reflexivity|lia|].
          exists o. split; [|exact E].
          eapply (bu_false _ _ _ st' _ k); [unfold k; nia|exact Hf|exact B].
        + cbn [mbind res_bind]. exists (st', None). split.
          * eapply (bu_unwind _ _ _ st' _ k); [unfold k; nia|exact Hf].
          * exists s1. split; [reflexivity|eauto].
    Qed.

    Lemma max_right_fx s n l0 st : R s A all (on_path l0) -> leaf log l0 ->
      exists o, bisect_u (askR l0) (2 * log + 1) st (l0 - size) (size + 1) o /\
        ends good (fun k => if k =? size then n else k) o
          (rloop (2 * size + 1) (lt_max_right_step_fx op idm mapping comp n size g) (s, l0, e, st)).
    Proof.
      intros HR Hl0. unfold leaf in Hl0. pose proof (pow2_pos log) as Hsz.
      set (step := lt_max_right_step_fx op idm mapping comp n size g).
      assert (forall fuel m l sm st h b c, m < fuel -> m + l * 2 ^ h = 2 * size -> l * 2 ^ h < 2 * size ->
          l0 <= l * 2 ^ h -> (l0 = l * 2 ^ h \/ (Nat.even l = true /\ (l - 2) * 2 ^ h <= l0)) ->
          sm = Pr A l0 (l * 2 ^ h) -> (b = h \/ b = h + 1 /\ Nat.even l = true) -> 2 * log + 1 <= c + b ->
          exists o, bisect_u (askR l0) c st (l * 2 ^ h - size) (size + 1) o /\
            ends good (fun k => if k =? size then n else k) o (rloop fuel step (s, l, sm, st))) as G.
      2:{ destruct (G (2 * size + 1) (2 * size - l0) l0 e st 0 0 (2 * log + 1)) as (o & B & E);
            rewrite ?Nat.pow_0_r, ?Nat.mul_1_r; try lia.
          - rewrite Pr_nil by lia. reflexivity.
          - exists o. split; [|exact E]. rewrite Nat.pow_0_r, Nat.mul_1_r in B. exact B. }
      clear st. intros fuel. induction fuel as [|fuel IH]; intros m l sm st h b c Hm H1 H2 H3 H4 -> Hb Hc; [lia|].
      cbn [rloop].
      match goal with |- context [step ?x] =>
        let y := eval cbv beta iota zeta delta [step lt_max_right_step_fx] in (step x) in change (step x) with y end.
      assert (0 < l) as Hl by nia.
      destruct (strip_even_spec l Hl) as (k & l' & -> & Hll & Hodd). cbn [mbind res_bind].
      assert (b <= k + h) as Hgk.
      { destruct Hb as [->|[-> Hev]]; [lia|]. destruct k as [|k]; [|lia]. exfalso.
        rewrite Nat.pow_0_r, Nat.mul_1_r in Hll. subst l'. rewrite <- Nat.negb_even, Hev in Hodd. discriminate. }
      assert (Hpar : (l' - 1) * 2 ^ (k + h) <= l0).
      { rewrite Nat.pow_add_r. destruct H4 as [->|[Hev H4]]; [subst l; nia|].
        destruct k as [|k].
        { rewrite Nat.pow_0_r, Nat.mul_1_r in Hll. subst l'. rewrite <- Nat.negb_even, Hev in Hodd. discriminate. }
        rewrite Nat.pow_succ_r' in *. pose proof (pow2_pos k).
        transitivity ((l - 2) * 2 ^ h); [|exact H4].
        rewrite Nat.mul_assoc. apply Nat.mul_le_mono_r. subst l. nia. }
      assert (l * 2 ^ h = l' * 2 ^ (k + h)) as E by (rewrite Nat.pow_add_r; nia).
      clear Hb. rewrite E in *. clear E H4. generalize dependent (k + h). clear k h l Hl Hll.
      intros h H1 H2 H3 Hgk Hpar. pose proof (pow2_pos h) as Hph.
      assert (0 < l') as Hl' by nia.
      assert (Hh : h <= log).
      { apply Nat.lt_succ_r. apply (Nat.pow_lt_mono_r_iff 2); [lia|]. rewrite Nat.pow_succ_r'. nia. }
      assert (Hn : node h l') by (split; [exact Hh|lia]).
      assert (Ha : forall j x, node j x -> anc h l' j x -> on_path l0 j x).
      { intros j x Hx [Hj ->]. split; [lia|]. symmetry. apply under.
        destruct (anc_range h l' j Hj) as [A1 A2].
        apply Nat.odd_spec in Hodd as [q ->]. replace ((2 * q + 1) / 2) with q in * by (apply (Nat.div_unique _ _ _ 1); lia).
        replace (2 * q + 1 - 1) with (2 * q) in * by lia. nia. }
      rewrite (read s A all _ h l' HR Hn I Ha). cbn [mbind res_bind].
      pose proof (node_hi _ _ _ Hn) as Hhi.
      rewrite <- (Pr_app e op L) by nia.
      set (k := (l' + 1) * 2 ^ h - size).
      assert (size + k = (l' + 1) * 2 ^ h) as Ek by (unfold k; nia).
      assert (l' * 2 ^ h - size < k < size + 1) as Hk by (unfold k; nia).
      destruct c as [|c]; [lia|]. rewrite <- Ek.
      destruct (g st (Pr A l0 (size + k))) as [st' [[|]|]] eqn:Hf; cbn [mbind res_bind].
      - destruct (Nat.eqb_spec (lowbit (l' + 1)) (l' + 1)) as [Hp|Hnp]; cbn [mbind res_bind].
        + destruct (lowbit_eq_pow2 (l' + 1)) as [j Hj]; [lia|exact Hp|].
          assert ((l' + 1) * 2 ^ h = 2 * size) as E.
          { assert (size < (l' + 1) * 2 ^ h) as Hgt by nia.
            rewrite Hj in *. rewrite <- Nat.pow_add_r in *.
            assert (log < j + h) as G1 by (apply (Nat.pow_lt_mono_r_iff 2); [lia|exact Hgt]).
            assert (j + h <= Datatypes.S log) as G2 by (apply (Nat.pow_le_mono_r_iff 2); [lia|]; rewrite Nat.pow_succ_r'; lia).
            replace (j + h) with (Datatypes.S log) by lia. rewrite Nat.pow_succ_r'. reflexivity. }
          exists (st', Some size). split.
          * eapply (bu_true _ _ _ st' _ k); [exact Hk|exact Hf|].
            replace k with size by lia. apply bu_done.
          * exists s. cbn. rewrite Nat.eqb_refl. split; [reflexivity|eauto].
        + assert ((l' + 1) * 2 ^ h <> 2 * size) as Hne2.
          { intros E. apply Hnp. rewrite (size_split log h Hh), Nat.mul_assoc in E.
            apply Nat.mul_cancel_r in E; [|lia]. rewrite E, <- Nat.pow_succ_r'. apply lowbit_pow2. }
          assert (Nat.even (l' + 1) = true) as Hev by (rewrite Nat.add_1_r, Nat.even_succ; exact Hodd).
          destruct (IH (2 * size - (l' + 1) * 2 ^ h) (l' + 1) (Pr A l0 ((l' + 1) * 2 ^ h)) st' h (h + 1) c)
            as (o & B & E); [nia|nia|nia|nia| |reflexivity|auto|lia|].
          { right. split; [exact Hev|]. replace (l' + 1 - 2) with (l' - 1) by lia. exact Hpar. }
          rewrite Ek. exists o. split; [|exact E].
          eapply (bu_true _ _ _ st' _ k); [exact Hk|exact Hf|exact B].
      - destruct (descend_right_fx l0 ltac:(lia) h s _ l' _ st' HR Hn Ha H3 eq_refl) as (o & B & E).
        exists o. split.
        + eapply (bu_false _ _ _ st' _ k); [exact Hk|exact Hf|].
          apply (bisect_u_mono _ h); [lia|exact B].
        + destruct E as (x & -> & Q). cbn [mbind res_bind]. exists x. split; [|exact Q].
          destruct o as [st2 [r|]]; [|reflexivity]. cbn.
          apply bisect_u_range in B. destruct (Nat.eqb_spec r size); [nia|reflexivity].
      - exists (st', None). split; [eapply (bu_unwind _ _ _ st' _ k); [exact Hk|exact Hf]|].
        exists s. split; [reflexivity|eauto].
    Qed.

    Lemma descend_left_fx r0 : forall h s C r sm st, R s A all C -> node h r ->
      (forall j x, node j x -> anc h r j x -> C j x) -> (r + 1) * 2 ^ h <= r0 -> sm = Pr A ((r + 1) * 2 ^ h) r0 ->
      exists o, bisect_u (askL r0) h st (r0 - (r + 1) * 2 ^ h) (r0 - r * 2 ^ h) o /\
        ends good (fun j => r0 - j - size) o (lt_descend_left_fx op idm mapping comp size g s r sm st).
    Proof.
      intros h s C r sm st HR Hn Ha Hr0 Hsm. unfold lt_descend_left_fx.
      match goal with |- context [rloop _ ?st _] => set (step := st) end.
      assert (h < size + 1) as Hfuel by (apply height_lt; apply Hn).
      revert Hfuel. generalize (size + 1) as fuel. intros fuel. revert fuel s C r sm st HR Hn Ha Hr0 Hsm.
      induction h as [|h IH]; intros [|fuel] s C r sm st HR Hn Ha Hr0 Hsm Hfuel; [lia| |lia|]; cbn [rloop].
      - open1 step. assert (~ r < size) by (intros H; apply (node_inner _ _ _ Hn) in H; lia).
        destruct (Nat.ltb_spec r size); [lia|]. cbn [mbind res_bind]. rewrite nsub_ok by lia. cbn [mbind res_bind].
        rewrite Nat.pow_0_r, !Nat.mul_1_r in *. exists (st, Some (r0 - (r + 1))). split.
        + replace (r0 - r) with (r0 - (r + 1) + 1) by lia. apply bu_done.
        + exists s. split; [cbn; do 3 f_equal; lia|eauto].
      - open1 step. assert (r < size) as Hls by (apply (node_inner _ _ _ Hn); lia).
        destruct (Nat.ltb_spec r size); [|lia].
        destruct (push_down s A C h r HR Hn Ha) as (s1 & C1 & -> & HR1 & Ha1). cbn [mbind res_bind].
        rewrite (read s1 A all C1 h (2 * r + 1) HR1 (node_right _ _ _ Hn) I (Ha1 _ (or_intror eq_refl))). cbn [mbind res_bind].
        pose proof (pow2_pos h) as Hph.
        rewrite Nat.pow_succ_r' in *. subst sm.
        replace (r * (2 * 2 ^ h)) with (2 * r * 2 ^ h) in * by lia.
        replace ((r + 1) * (2 * 2 ^ h)) with ((2 * r + 1 + 1) * 2 ^ h) in * by lia.
        rewrite <- (Pr_app e op L) by nia.
        set (k := r0 - (2 * r + 1) * 2 ^ h).
        assert (r0 - k = (2 * r + 1) * 2 ^ h) as Ek by (unfold k; nia).
        rewrite <- Ek.
        destruct (g st (Pr A (r0 - k) r0)) as [st' [[|]|]] eqn:Hf.
        + rewrite nsub_ok by lia. cbn [mbind res_bind]. replace (2 * r + 1 - 1) with (2 * r) by lia.
          destruct (IH fuel s1 C1 (2 * r) (Pr A ((2 * r + 1) * 2 ^ h) r0) st' HR1 (node_left _ _ _ Hn))
            as (o & B & E); [apply Ha1; auto|nia|reflexivity|lia|].
          rewrite Ek. exists o. split; [|exact E].
          eapply (bu_true _ _ _ st' _ k); [unfold k; nia|exact Hf|exact B].
        + destruct (IH fuel s1 C1 (2 * r + 1) (Pr A ((2 * r + 1 + 1) * 2 ^ h) r0) st' HR1 (node_right _ _ _ Hn))
            as (o & B & E); [apply Ha1; auto|nia|reflexivity|lia|].
          exists o. split; [|exact E].
          eapply (bu_false _ _ _ st' _ k); [unfold k; nia|exact Hf|exact B].
        + cbn [mbind res_bind]. exists (st', None). split.
          * eapply (bu_unwind _ _ _ st' _ k); [unfold k; nia|exact Hf].
          * exists s1. split; [reflexivity|eauto].
    Qed.

    Lemma min_left_fx s r0 st : R s A all (on_path (r0 - 1)) -> leaf log (r0 - 1) ->
      exists o, bisect_u (askL r0) (2 * log + 1) st 0 (r0 - size + 1) o /\
        ends good (fun j => r0 - j - size) o
          (rloop (2 * size + 1) (lt_min_left_step_fx op idm mapping comp size g) (s, r0, e, st)).
    Proof.
      intros HR Hl0. unfold leaf in Hl0. pose proof (pow2_pos log) as Hsz.
      set (step := lt_min_left_step_fx op idm mapping comp size g).
      assert (forall fuel m r sm st h b c, m < fuel -> m + size = r * 2 ^ h -> 0 < m -> h <= log ->
          r * 2 ^ h <= r0 -> (r0 = r * 2 ^ h \/ (Nat.even r = true /\ r0 <= (r + 2) * 2 ^ h)) ->
          sm = Pr A (r * 2 ^ h) r0 -> (b = h \/ b = h + 1 /\ (Nat.even r = true /\ lowbit r <> r)) -> 2 * log + 1 <= c + b ->
          exists o, bisect_u (askL r0) c st (r0 - r * 2 ^ h) (r0 - size + 1) o /\
            ends good (fun j => r0 - j - size) o (rloop fuel step (s, r, sm, st))) as G.
      2:{ destruct (G (2 * size + 1) (r0 - size) r0 e st 0 0 (2 * log + 1)) as (o & B & E);
            rewrite ?Nat.pow_0_r, ?Nat.mul_1_r; try lia.
          - rewrite Pr_nil by lia. reflexivity.
          - exists o. split; [|exact E]. rewrite Nat.pow_0_r, Nat.mul_1_r, Nat.sub_diag in B. exact B. }
      clear st. intros fuel. induction fuel as [|fuel IH]; intros m r sm st h b c Hm H1 H2 Hh H3 H4 -> Hb Hc; [lia|].
      cbn [rloop].
      match goal with |- context [step ?x] =>
        let y := eval cbv beta iota zeta delta [step lt_min_left_step_fx] in (step x) in change (step x) with y end.
      assert (1 < r) as Hr.
      { assert (2 ^ h <= size) by (apply Nat.pow_le_mono_r; lia). nia. }
      rewrite nsub_ok by lia. cbn [mbind res_bind].
      destruct (strip_odd_spec (r - 1) ltac:(lia)) as (k & r' & -> & Hrr & Hr' & Hev). cbn [mbind res_bind].
      replace (r - 1 + 1) with r in Hrr by lia.
      assert (b <= k + h) as Hgk.
      { destruct Hb as [->|[-> [He Hlb]]]; [lia|]. destruct k as [|k]; [|lia]. exfalso.
        rewrite Nat.pow_0_r, Nat.mul_1_r in Hrr. destruct Hev as [->|Hev].
        - subst r. apply Hlb. exact (lowbit_pow2 1).
        - subst r. rewrite Nat.add_1_r, Nat.even_succ, <- Nat.negb_even, Hev in He. discriminate. }
      assert (Hpar : r' = 1 \/ r0 <= (r' + 2) * 2 ^ (k + h)).
      { rewrite Nat.pow_add_r. destruct H4 as [->|[Hrev H4]]; [right; subst r; nia|].
        destruct k as [|k].
        { rewrite Nat.pow_0_r, Nat.mul_1_r in Hrr. subst r. rewrite Nat.add_1_r, Nat.even_succ in Hrev.
          destruct Hev as [->|Hev]; [left; reflexivity|]. rewrite <- Nat.negb_even, Hev in Hrev. discriminate. }
        right. rewrite Nat.pow_succ_r' in *. pose proof (pow2_pos k).
        etransitivity; [exact H4|].
        rewrite Nat.mul_assoc. apply Nat.mul_le_mono_r. subst r. nia. }
      assert (r * 2 ^ h = (r' + 1) * 2 ^ (k + h)) as E by (rewrite Nat.pow_add_r; nia).
      clear Hb. rewrite E in *. clear E H4. generalize dependent (k + h). clear k h Hh r Hr Hrr.
      intros h H1 H3 Hgk Hpar. pose proof (pow2_pos h) as Hph.
      assert (h <= log) as Hh.
      { apply (Nat.pow_le_mono_r_iff 2); [lia|]. nia. }
      assert (size <= r' * 2 ^ h) as Hlo.
      { pose proof (size_split log h Hh) as Hq.
        assert (2 ^ (log - h) < r' + 1) by (apply (Nat.mul_lt_mono_pos_r (2 ^ h)); lia).
        rewrite Hq. apply Nat.mul_le_mono_r. lia. }
      assert (Hn : node h r') by (split; [exact Hh|]; split; [exact Hlo|nia]).
      assert (Ha : forall j x, node j x -> anc h r' j x -> on_path (r0 - 1) j x).
      { intros j x Hx [Hj ->]. split; [lia|]. symmetry. apply under.
        destruct (anc_range h r' j Hj) as [A1 A2].
        destruct Hev as [->|Hev].
        - exfalso. destruct Hx as (Hjl & Hx & _). rewrite Nat.div_small in Hx; [lia|].
          apply Nat.pow_gt_1; lia.
        - destruct Hpar as [->|Hpar]; [discriminate Hev|].
          apply Nat.even_spec in Hev as [q ->]. replace (2 * q / 2) with q in * by (symmetry; rewrite Nat.mul_comm; apply Nat.div_mul; lia).
          nia. }
      rewrite (read s A all _ h r' HR Hn I Ha). cbn [mbind res_bind].
      rewrite <- (Pr_app e op L) by nia.
      set (k := r0 - r' * 2 ^ h).
      assert (r0 - k = r' * 2 ^ h) as Ek by (unfold k; nia).
      assert (r0 - (r' + 1) * 2 ^ h < k < r0 - size + 1) as Hk by (unfold k; nia).
      destruct c as [|c]; [lia|]. rewrite <- Ek.
      destruct (g st (Pr A (r0 - k) r0)) as [st' [[|]|]] eqn:Hf; cbn [mbind res_bind].
      - destruct (Nat.eqb_spec (lowbit r') r') as [Hp|Hnp]; cbn [mbind res_bind].
        + destruct (lowbit_eq_pow2 r') as [j Hj]; [lia|exact Hp|].
          assert (r' * 2 ^ h = size) as E.
          { assert (r' * 2 ^ h < 2 * size) as Hgt by nia.
            rewrite Hj in *. rewrite <- Nat.pow_add_r in *.
            assert (log <= j + h) as G1 by (apply (Nat.pow_le_mono_r_iff 2); [lia|lia]).
            assert (j + h < Datatypes.S log) as G2 by (apply (Nat.pow_lt_mono_r_iff 2); [lia|]; rewrite Nat.pow_succ_r'; lia).
            f_equal. lia. }
          exists (st', Some k). split.
          * eapply (bu_true _ _ _ st' _ k); [exact Hk|exact Hf|].
            replace (r0 - size + 1) with (k + 1) by lia. apply bu_done.
          * exists s. split; [cbn; do 3 f_equal; lia|eauto].
        + assert (r' * 2 ^ h <> size) as Hne2.
          { intros E. apply Hnp. rewrite (size_split log h Hh) in E.
            apply Nat.mul_cancel_r in E; [|lia]. rewrite E. apply lowbit_pow2. }
          assert (Nat.even r' = true) as Hev'.
          { destruct Hev as [->|Hev]; [|exact Hev]. exfalso. apply Hnp. exact (lowbit_pow2 0). }
          destruct (IH (r' * 2 ^ h - size) r' (Pr A (r' * 2 ^ h) r0) st' h (h + 1) c)
            as (o & B & E); [nia|nia|nia|lia|nia| |reflexivity|auto|lia|].
          { right. split; [exact Hev'|]. destruct Hpar as [->|Hpar]; [discriminate Hev'|exact Hpar]. }
          rewrite Ek. exists o. split; [|exact E].
          eapply (bu_true _ _ _ st' _ k); [exact Hk|exact Hf|exact B].
      - destruct (descend_left_fx r0 h s _ r' _ st' HR Hn Ha H3 eq_refl) as (o & B & E).
        exists o. split.
        + eapply (bu_false _ _ _ st' _ k); [exact Hk|exact Hf|].
          apply (bisect_u_mono _ h); [lia|exact B].
        + destruct E as (x & -> & Q). cbn [mbind res_bind]. exists x. split; [reflexivity|exact Q].
      - exists (st', None). split; [eapply (bu_unwind _ _ _ st' _ k); [exact Hk|exact Hf]|].
        exists s. split; [reflexivity|eauto].
    Qed.
  End Tree.

  Section Top.
    Context (t : lazytree S F) (a : list S) (I : LInv e op idm mapping t a).
    Local Notation P := (mprod e op).
    Local Notation n := (lt_n t).
    Local Notation LI := (fun t' => LInv e op idm mapping t' a).

    Lemma ends_bind h o r :
      ends (fun s => exists C, R e op idm mapping (lt_log t) s (arr e (lt_log t) a) all C) h o r ->
      ends LI h o ('(s, st, x) ← r; Ok (with_tree t s, st, x)).
    Proof.
      intros (s & -> & C & HR). cbn [mbind res_bind]. eexists. split; [reflexivity|].
      apply (linv_with e op idm mapping t a I s C a HR eq_refl).
    Qed.

    Lemma lt_max_right_bisect l st : l < n ->
      exists o, bisect_u (fun k st => g st (P (slice a l k))) (2 * lt_log t + 1) st l (lt_size t + 1) o /\
        ends LI (fun k => if k =? lt_size t then n else k) o
          ('(s, st, r) ← (s ← lt_push_path idm mapping comp (lt_size t) (lt_log t) (lt_d t, lt_lz t) (l + lt_size t);
             rloop (2 * lt_size t + 1) (lt_max_right_step_fx op idm mapping comp n (lt_size t) g) (s, l + lt_size t, e, st));
           Ok (with_tree t s, st, r)).
    Proof.
      intros Hl. pose proof (li_size _ _ _ _ _ _ I) as Hsize. pose proof (li_le _ _ _ _ _ _ I) as Hle.
      destruct (push_path e op idm mapping comp L ML t a I l Hl) as (s & -> & HR). cbn [mbind res_bind].
      destruct (max_right_fx (lt_log t) _ s n (l + lt_size t) st HR) as (o & B & E).
      { apply (leaf_of e op idm mapping t a I). lia. }
      rewrite <- Hsize in B, E. exists o. split; [|apply ends_bind; exact E].
      replace (l + lt_size t - lt_size t) with l in B by lia.
      eapply bisect_u_ext; [|exact B]. intros k st' Hk. cbv beta. f_equal.
      rewrite (Nat.add_comm l), Hsize. apply (Pr_arr e op L). lia.
    Qed.

    Lemma lt_min_left_bisect r st : 0 < r -> r <= n ->
      exists o, bisect_u (fun j st => g st (P (slice a (r - j) r))) (2 * lt_log t + 1) st 0 (r + 1) o /\
        ends LI (fun j => r - j) o
          ('(s, st, l) ← (s ← lt_push_path idm mapping comp (lt_size t) (lt_log t) (lt_d t, lt_lz t) (r + lt_size t - 1);
             rloop (2 * lt_size t + 1) (lt_min_left_step_fx op idm mapping comp (lt_size t) g) (s, r + lt_size t, e, st));
           Ok (with_tree t s, st, l)).
    Proof.
      intros Hr0 Hr. pose proof (li_size _ _ _ _ _ _ I) as Hsize. pose proof (li_le _ _ _ _ _ _ I) as Hle.
      destruct (push_path e op idm mapping comp L ML t a I (r - 1) ltac:(lia)) as (s & E0 & HR).
      replace (r - 1 + lt_size t) with (r + lt_size t - 1) in * by lia. rewrite E0. cbn [mbind res_bind].
      destruct (min_left_fx (lt_log t) _ s (r + lt_size t) st HR) as (o & B & E).
      { replace (r + lt_size t - 1) with (r - 1 + lt_size t) by lia. apply (leaf_of e op idm mapping t a I). lia. }
      rewrite <- Hsize in B, E. exists o. replace (r + lt_size t - lt_size t + 1) with (r + 1) in B by lia. split.
      - eapply bisect_u_ext; [|exact B]. intros k st' Hk. cbv beta. f_equal.
        replace (r + lt_size t - k) with (lt_size t + (r - k)) by lia.
        rewrite (Nat.add_comm r), Hsize. apply (Pr_arr e op L). lia.
      - apply ends_bind in E. destruct o as [st' [k|]]; [|exact E]. unfold ends in *. cbn [fst snd fmap option_fmap option_map] in *.
        apply bisect_u_range in B.
        replace (r + lt_size t - k - lt_size t) with (r - k) in E by lia. exact E.
    Qed.
  End Top.
End Lazy.
