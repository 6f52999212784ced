From Coq Require Import Sorting.Sorted.
From Verif Require Import Prelude ArraySpec HeapModel HeapSpec HeapProps HeapUseModel HeapUseSpec.

(** ** One call on a heap, as a bag *)
Section Bag.
  Context {T : Type} (le : T -> T -> Prop) (B : binheap (reverse T)) (content : bh B -> list (reverse T)) (C : binheap_contract (rev_le le) B content).
  Local Notation bag := (bag B content).
  Lemma bag_new : bag (mh_new B) = [].
  Proof. unfold HeapProps.bag, mh_new. rewrite (bc_new _ _ _ C). reflexivity. Qed.
  Lemma bag_push h x : bag (mh_push B h x) ≡ₚ x :: bag h.
  Proof. unfold HeapProps.bag, mh_push. rewrite (bc_push _ _ _ C). reflexivity. Qed.
  Lemma bag_len h : mh_len B h = length (bag h).
  Proof. unfold HeapProps.bag, mh_len. rewrite (bc_len _ _ _ C), map_length. reflexivity. Qed.
  Lemma bag_pop h : (bag h = [] /\ (mh_pop B h).1 = None) \/ exists x h', mh_pop B h = (Some x, h') /\ bag h ≡ₚ x :: bag h' /\ forall y, y ∈ bag h -> le x y.
  Proof.
    destruct (mh_step_spec le B content C h MhPop) as (h' & out & E & S). cbn [mh_step] in E. destruct (mh_pop B h) as [o h1]. injection E as -> <-. inversion S; subst; [left; auto|right].
    match goal with L : least _ _ _ |- _ => destruct L as [_ L] end. eauto.
  Qed.
  Lemma bag_peek h : (bag h = [] /\ mh_peek B h = None) \/ exists x, mh_peek B h = Some x /\ x ∈ bag h /\ forall y, y ∈ bag h -> le x y.
  Proof.
    destruct (mh_step_spec le B content C h MhPeek) as (h' & out & E & S). cbn [mh_step] in E. injection E as <- <-. inversion S as [| | |E1 E2 E3|b x L E1 E2 E3| | | |]; subst; [left; auto|right]. destruct L. eauto.
  Qed.
End Bag.

Lemma sorted_snoc {T} (R : T -> T -> Prop) l x : StronglySorted R l -> (forall y, y ∈ l -> R y x) -> StronglySorted R (l ++ [x]).
Proof.
  induction 1 as [|a l S IH F]; intros H; cbn; [repeat constructor|]. constructor; [apply IH; intros y Hy; apply H; right; exact Hy|]. apply Forall_app. split; [exact F|]. constructor; [apply H; left|constructor].
Qed.

Section Sort.
  Context {T : Type} (le : T -> T -> Prop) (B : binheap (reverse T)) (content : bh B -> list (reverse T)) (C : binheap_contract (rev_le le) B content).
  Local Notation bag := (bag B content).
  Lemma sort_ok v : exists out, heap_sort B v = Ok out /\ out ≡ₚ v /\ StronglySorted le out.
  Proof.
    unfold heap_sort. eapply (rloop_inv (fun '(h, out) => bag h ++ out ≡ₚ v /\ StronglySorted le out /\ forall x y, x ∈ out -> y ∈ bag h -> le x y) (fun out => out ≡ₚ v /\ StronglySorted le out) (fun s => length (bag s.1))).
    - intros [h out] (P & S & F). destruct (bag_pop le B content C h) as [[E1 E2]|(x & h' & E & Pb & Le)].
      + destruct (mh_pop B h) as [o h1]. cbn in E2. subst o. eexists. split; [reflexivity|]. rewrite E1 in P. cbn in P. split; assumption.
      + rewrite E. eexists. split; [reflexivity|]. cbn [fst]. split; [|rewrite Pb; cbn; lia]. split; [rewrite <- P, Pb; cbn; rewrite app_assoc, <- (Permutation_cons_append _ x); reflexivity|]. split.
        * apply sorted_snoc; [exact S|]. intros y Hy. apply F; [exact Hy|]. rewrite Pb. left.
        * intros a y Ha Hy. assert (y ∈ bag h) as Hy' by (rewrite Pb; right; exact Hy). apply elem_of_app in Ha as [Ha|Ha]; [auto|]. apply elem_of_list_singleton in Ha as ->. auto.
    - rewrite (bag_pushes le B content C), (bag_new le B content C). split_and!; [cbn; rewrite app_nil_r; reflexivity|constructor|]. intros x y Hx. inversion Hx.
    - cbn [fst]. rewrite (bag_pushes le B content C), (bag_new le B content C). cbn. lia.
  Qed.
  Lemma top_ok (le_trans : forall a b c, le a b -> le b c -> le a c) k v : largest le (min k (length v)) v (bag (top_k B k v)).
  Proof.
    unfold top_k. induction v as [|x v IH] using rev_ind.
    - cbn [fold_left]. rewrite (bag_new le B content C). cbn. rewrite Nat.min_0_r. split; [reflexivity|]. exists []. split; [reflexivity|]. intros x y Hx. inversion Hx.
    - rewrite fold_left_app. cbn [fold_left]. match goal with |- context [mh_push B ?h x] => set (hs := h) in * end. destruct IH as (L & rest & P & F). pose proof (bag_push le B content C hs x) as Pp. rewrite (bag_len le B content C), Pp, app_length. cbn [length]. rewrite L.
      assert (Lv : length v = length rest + length (bag hs)) by (rewrite P, app_length; reflexivity).
      destruct (Nat.ltb_spec k (S (min k (length v)))) as [Hk|Hk].
      + destruct (bag_pop le B content C (mh_push B hs x)) as [[E _]|(m & h' & E & Pb & Le)]; [exfalso; assert (x ∈ bag (mh_push B hs x)) as Hx by (rewrite Pp; left); rewrite E in Hx; inversion Hx|].
        rewrite E. cbn [snd]. assert (Lb : S (length (bag h')) = S (length (bag hs))) by (change (S (length (bag h'))) with (length (m :: bag h')); rewrite <- Pb, Pp; reflexivity). split; [lia|]. exists (rest ++ [m]). split.
        * rewrite P, <- app_assoc. rewrite <- !app_assoc. apply Permutation_app_head. rewrite <- Permutation_cons_append, <- Pp, Pb. reflexivity.
        * intros a y Ha Hy. assert (y ∈ bag (mh_push B hs x)) as Hy' by (rewrite Pb; right; exact Hy). apply elem_of_app in Ha as [Ha|Ha]; [|apply elem_of_list_singleton in Ha as ->; auto].
          rewrite Pp in Hy'. apply elem_of_cons in Hy' as [->|Hy']; [|auto]. assert (m ∈ x :: bag hs) as Hm by (rewrite <- Pp, Pb; left). apply elem_of_cons in Hm as [->|Hm]; [|apply (le_trans _ m); [auto|apply Le; rewrite Pp; left]].
          assert (bag hs ≡ₚ bag h') as Q by (apply (Permutation_cons_inv (a := x)); rewrite <- Pp, Pb; reflexivity). apply F; [exact Ha|]. rewrite Q. exact Hy.
      + assert (length v < k) by lia. assert (rest = []) as -> by (destruct rest; [reflexivity|cbn in Lv; lia]). split; [rewrite Pp; cbn; lia|]. exists []. split; [rewrite Pp, P; cbn; rewrite <- Permutation_cons_append; reflexivity|]. intros a y Ha. inversion Ha.
  Qed.
End Sort.

Section Merge.
  Context {T : Type} (le : T -> T -> Prop) (le_trans : forall a b c, le a b -> le b c -> le a c).
  Context (le3 : T * nat * nat -> T * nat * nat -> Prop) (le3_le : forall a b, le3 a b -> le a.1.1 b.1.1).
  Context (B : binheap (reverse (T * nat * nat))) (content : bh B -> list (reverse (T * nat * nat))) (C : binheap_contract (rev_le le3) B content).
  Context (vs : list (list T)) (Sv : forall v, v ∈ vs -> StronglySorted le v).
  Local Notation bag := (bag B content).
  (** What is still to come from an entry, itself included. *)
  Definition to_come (e : T * nat * nat) : list T := match vs !! e.1.2 with Some v => drop e.2 v | None => [] end.
  Definition entry (e : T * nat * nat) : Prop := exists v, vs !! e.1.2 = Some v /\ v !! e.2 = Some e.1.1.
  Lemma drop_head (v : list T) j : drop j v = match v !! j with Some x => x :: drop (j + 1) v | None => [] end.
  Proof. destruct (v !! j) as [x|] eqn:E; [rewrite Nat.add_1_r; apply drop_S; exact E|]. apply drop_ge. apply lookup_ge_None_1. exact E. Qed.
  Lemma put_ok i j h v : vs !! i = Some v -> Forall entry (bag h) -> exists h', put_head B vs i j h = Ok h' /\ Forall entry (bag h') /\
    concat (map to_come (bag h')) ≡ₚ drop j v ++ concat (map to_come (bag h)) /\ forall e, e ∈ bag h' -> e ∈ bag h \/ e.1.2 = i /\ e.2 = j.
  Proof.
    intros Hv F. unfold put_head. rewrite (vget_ok _ _ _ Hv). cbn [mbind res_bind]. eexists. split; [reflexivity|]. destruct (v !! j) as [x|] eqn:Ex.
    - pose proof (bag_push le3 B content C h (x, i, j)) as P. split_and!.
      + rewrite P. constructor; [exists v; cbn; auto|exact F].
      + rewrite P. cbn [map concat]. unfold to_come at 1. cbn [fst snd]. rewrite Hv. reflexivity.
      + intros e He. rewrite P in He. apply elem_of_cons in He as [->|He]; auto.
    - split_and!; [exact F| |auto]. rewrite (drop_head v j), Ex. reflexivity.
  Qed.
  Lemma heads_ok : exists h, rfor (range 0 (length vs)) (fun i h => put_head B vs i 0 h) (mh_new B) = Ok h /\ Forall entry (bag h) /\ concat (map to_come (bag h)) ≡ₚ concat vs.
  Proof.
    destruct (rfor_range_inv (fun i h => Forall entry (bag h) /\ concat (map to_come (bag h)) ≡ₚ concat (take i vs)) 0 (length vs) (fun i h => put_head B vs i 0 h) (mh_new B)) as (h & E & F & P).
    - lia.
    - rewrite (bag_new le3 B content C). split; [constructor|reflexivity].
    - intros i h [_ Hi] [F P]. rewrite Nat.add_1_r. destruct (lookup_lt_is_Some_2 vs i Hi) as [v Hv]. destruct (put_ok i 0 h v Hv F) as (h' & E & F' & P' & _). exists h'. split; [exact E|]. split; [exact F'|]. rewrite P', P, (take_S_r _ _ _ Hv), concat_app. cbn. rewrite app_nil_r. apply Permutation_app_comm.
    - exists h. rewrite firstn_all in P. auto.
  Qed.
  Lemma entry_least e y : entry e -> y ∈ to_come e -> y = e.1.1 \/ le e.1.1 y.
  Proof.
    intros (v & Hv & Hx) Hy. unfold to_come in Hy. rewrite Hv, drop_head, Hx in Hy. apply elem_of_cons in Hy as [->|Hy]; [auto|right]. assert (S : StronglySorted le v) by (apply Sv; eapply elem_of_list_lookup_2; eauto).
    clear -S Hx Hy. destruct e as [[x i] j]. cbn [fst snd] in *. revert j Hx Hy. induction S as [|a l S IH F]; intros j Hx Hy; [discriminate|]. destruct j as [|j]; cbn in *; [|eauto]. injection Hx as ->. rewrite drop_0 in Hy. rewrite Forall_forall in F. auto.
  Qed.
  Lemma merge_ok : exists out, merge_all B vs = Ok out /\ out ≡ₚ concat vs /\ StronglySorted le out.
  Proof.
    unfold merge_all. destruct heads_ok as (h0 & E0 & F0 & P0). rewrite E0. cbn [mbind res_bind].
    eapply (rloop_inv (fun '(h, out) => Forall entry (bag h) /\ concat (map to_come (bag h)) ++ out ≡ₚ concat vs /\ StronglySorted le out /\ forall x y, x ∈ out -> y ∈ concat (map to_come (bag h)) -> le x y)
      (fun out => out ≡ₚ concat vs /\ StronglySorted le out) (fun s => length (concat (map to_come (bag s.1))))).
    - intros [h out] (F & P & S & Le). destruct (bag_pop le3 B content C h) as [[E1 E2]|([[x i] j] & h' & E & Pb & Ml)].
      + destruct (mh_pop B h) as [o h1]. cbn in E2. subst o. eexists. split; [reflexivity|]. rewrite E1 in P. cbn in P. split; assumption.
      + rewrite E. assert (F' : Forall entry ((x, i, j) :: bag h')) by (rewrite <- Pb; exact F). inversion F' as [|? ? En Fr]; subst. pose proof En as (v & Hv & Hx). cbn [fst snd] in Hv, Hx.
        destruct (put_ok i (j + 1) h' v Hv Fr) as (h2 & E2 & F2 & P2 & _). rewrite E2. cbn [mbind res_bind]. eexists. split; [reflexivity|]. cbn [fst].
        assert (Q : concat (map to_come (bag h)) ≡ₚ x :: concat (map to_come (bag h2))).
        { rewrite Pb. cbn [map concat]. rewrite P2. unfold to_come at 1. cbn [fst snd]. rewrite Hv, drop_head, Hx. reflexivity. }
        split; [|rewrite Q; cbn; lia]. split; [exact F2|]. split; [rewrite <- P, Q; cbn; rewrite app_assoc, <- (Permutation_cons_append _ x); reflexivity|]. split.
        * apply sorted_snoc; [exact S|]. intros y Hy. apply Le; [exact Hy|]. rewrite Q. left.
        * intros a y Ha Hy. assert (y ∈ concat (map to_come (bag h))) as Hy' by (rewrite Q; right; exact Hy). apply elem_of_app in Ha as [Ha|Ha]; [auto|]. apply elem_of_list_singleton in Ha as ->.
          rewrite P2 in Hy. apply elem_of_app in Hy as [Hy|Hy].
          { assert (S' : StronglySorted le v) by (apply Sv; eapply elem_of_list_lookup_2; eauto). clear -S' Hx Hy. revert j Hx Hy. induction S' as [|b l S IH G]; intros j Hx Hy; [discriminate|]. destruct j as [|j]; cbn in *; [|eauto]. injection Hx as ->. rewrite drop_0 in Hy. rewrite Forall_forall in G. auto. }
          { apply elem_of_list_In, in_concat in Hy as (l & Hl & Hy). apply elem_of_list_In in Hl, Hy. apply elem_of_list_fmap in Hl as (e & -> & He). rewrite Forall_forall in Fr. assert (H1 : le x e.1.1) by (apply (le3_le (x, i, j)); apply Ml; rewrite Pb; right; exact He).
            destruct (entry_least e y (Fr e He) Hy) as [->|H2]; [exact H1|]. eapply le_trans; eauto. }
    - split_and!; [exact F0|rewrite app_nil_r; exact P0|constructor|]. intros x y Hx. inversion Hx.
    - cbn [fst]. rewrite P0. lia.
  Qed.
End Merge.

Section Median.
  Context {T : Type} (le : T -> T -> Prop) (leb : T -> T -> bool) (leb_le : forall a b, leb a b = true <-> le a b).
  Context (le_trans : forall a b c, le a b -> le b c -> le a c) (le_total : forall a b, le a b \/ le b a).
  Context (L : binheap (reverse (reverse T))) (cl : bh L -> list (reverse (reverse T))) (CL : binheap_contract (rev_le (rev_le le)) L cl).
  Context (H : binheap (reverse T)) (ch : bh H -> list (reverse T)) (CH : binheap_contract (rev_le le) H ch).
  Local Notation lows lo := (map rev_get (bag L cl lo)).
  Local Notation highs hi := (bag H ch hi).
  Definition halves (v : list T) (s : bh L * bh H) : Prop :=
    v ≡ₚ lows s.1 ++ highs s.2 /\ (forall x y, x ∈ lows s.1 -> y ∈ highs s.2 -> le x y).
  Lemma low_in lo m : m ∈ bag L cl lo -> rev_get m ∈ lows lo.
  Proof. intros Hm. apply elem_of_list_fmap. eauto. Qed.
  Lemma put_halves v s x : halves v s -> length (highs s.2) <= length (lows s.1) -> halves (v ++ [x]) (median_put leb L H s.1 s.2 x) /\
    length (lows (median_put leb L H s.1 s.2 x).1) + length (highs (median_put leb L H s.1 s.2 x).2) = S (length (lows s.1) + length (highs s.2)) /\
    length (lows s.1) <= length (lows (median_put leb L H s.1 s.2 x).1) <= S (length (lows s.1)).
  Proof.
    intros [P F] Hl. destruct s as [lo hi]. cbn [fst snd] in *. unfold median_put.
    assert (PL : lows (mh_push L lo (Reverse x)) ≡ₚ x :: lows lo) by (rewrite (bag_push _ L cl CL); reflexivity).
    pose proof (bag_push le H ch CH hi x) as PH.
    destruct (bag_peek (rev_le le) L cl CL lo) as [[E1 E2]|(m & E & Hm & Le)].
    - rewrite E2. cbn [fst snd]. split; [split; cbn [fst snd]|rewrite PL; cbn [length]; lia].
      + rewrite PL, P, <- Permutation_cons_append. reflexivity.
      + intros a y _ Hy. rewrite E1 in Hl. cbn in Hl. destruct (highs hi); [inversion Hy|cbn in Hl; lia].
    - rewrite E. pose proof (low_in lo m Hm) as Hm'. destruct (leb x (rev_get m)) eqn:El; cbn [fst snd].
      + apply leb_le in El. split; [split; cbn [fst snd]|rewrite PL; cbn [length]; lia].
        * rewrite PL, P, <- Permutation_cons_append. reflexivity.
        * intros a y Ha Hy. rewrite PL in Ha. apply elem_of_cons in Ha as [->|Ha]; [|auto]. eapply le_trans; eauto.
      + assert (le (rev_get m) x) as El' by (destruct (le_total (rev_get m) x) as [?|G]; [assumption|apply leb_le in G; congruence]).
        split; [split; cbn [fst snd]|rewrite PH; cbn [length]; lia].
        * rewrite PH, P, <- app_assoc, <- Permutation_cons_append. reflexivity.
        * intros a y Ha Hy. rewrite PH in Hy. apply elem_of_cons in Hy as [->|Hy]; [|auto]. apply elem_of_list_fmap in Ha as (r & -> & Hr). apply (le_trans _ (rev_get m)); [|exact El']. exact (Le r Hr).
  Qed.
  Lemma balance_ok v s : halves v s -> length (highs s.2) <= S (length (lows s.1)) -> length (lows s.1) <= S (S (length (highs s.2))) ->
    exists s', median_balance L H s.1 s.2 = Ok s' /\ halves v s' /\ length (highs s'.2) <= length (lows s'.1) <= S (length (highs s'.2)).
  Proof.
    intros [P F] H1 H2. destruct s as [lo hi]. cbn [fst snd] in *. unfold median_balance. rewrite (bag_len _ L cl CL), (bag_len _ H ch CH). rewrite !fmap_length in *.
    destruct (Nat.ltb_spec (S (length (highs hi))) (length (bag L cl lo))) as [G|G]; [|destruct (Nat.ltb_spec (length (bag L cl lo)) (length (highs hi))) as [K|K]].
    - destruct (bag_pop (rev_le le) L cl CL lo) as [[E _]|(m & lo' & E & Pb & Le)]; [rewrite E in G; cbn in G; lia|]. rewrite E. cbn [runwrap mbind res_bind]. eexists. split; [reflexivity|]. unfold halves. cbn [fst snd].
      pose proof (bag_push le H ch CH hi (rev_get m)) as PH. assert (Lb : length (bag L cl lo) = S (length (bag L cl lo'))) by (rewrite Pb; reflexivity). rewrite !fmap_length. split; [split|rewrite PH; cbn [length]; lia].
      + rewrite P, Pb, PH. cbn. apply Permutation_middle.
      + intros a y Ha Hy. rewrite PH in Hy. apply elem_of_list_fmap in Ha as (r & -> & Hr). assert (r ∈ bag L cl lo) as Hr' by (rewrite Pb; right; exact Hr). apply elem_of_cons in Hy as [->|Hy]; [exact (Le r Hr')|]. apply F; [apply low_in; exact Hr'|exact Hy].
    - destruct (bag_pop le H ch CH hi) as [[E _]|(m & hi' & E & Pb & Le)]; [rewrite E in K; cbn in K; lia|]. rewrite E. cbn [runwrap mbind res_bind]. eexists. split; [reflexivity|]. unfold halves. cbn [fst snd].
      pose proof (bag_push (rev_le le) L cl CL lo (Reverse m)) as PL. assert (Lb : length (highs hi) = S (length (highs hi'))) by (rewrite Pb; reflexivity). rewrite !fmap_length. split; [split|rewrite PL; cbn [length]; lia].
      + rewrite P, Pb, PL. cbn. symmetry. apply Permutation_middle.
      + intros a y Ha Hy. rewrite PL in Ha. cbn in Ha. assert (y ∈ highs hi) as Hy' by (rewrite Pb; right; exact Hy). apply elem_of_cons in Ha as [->|Ha]; auto.
    - eexists. split; [reflexivity|]. unfold halves. cbn [fst snd]. rewrite !fmap_length. split; [split; assumption|lia].
  Qed.
  Lemma step_ok v s x : halves v s -> length (highs s.2) <= length (lows s.1) <= S (length (highs s.2)) ->
    exists s' m, median_step leb L H s x = Ok (s', m) /\ halves (v ++ [x]) s' /\ length (highs s'.2) <= length (lows s'.1) <= S (length (highs s'.2)) /\ lower_median le (v ++ [x]) m.
  Proof.
    intros Hs Hl. unfold median_step. destruct (put_halves v s x Hs ltac:(lia)) as (Hp & E1 & E2). destruct (median_put leb L H s.1 s.2 x) as [lo hi] eqn:Ep. cbn [fst snd] in *.
    destruct (balance_ok (v ++ [x]) (lo, hi) Hp) as ([lo' hi'] & E & [P F] & K); cbn [fst snd] in *; [lia|lia|]. rewrite E. cbn [mbind res_bind fst snd]. destruct (bag_peek (rev_le le) L cl CL lo') as [[G1 G2]|(m & G & Hm & Le)].
    - exfalso. rewrite G1 in *. cbn in K. assert (length (v ++ [x]) = length (highs hi')) as Lv by (rewrite P; reflexivity). rewrite app_length in Lv. cbn in Lv. lia.
    - rewrite G. cbn [runwrap mbind res_bind]. eexists _, _. split; [reflexivity|]. split; [split; assumption|]. split; [exact K|].
      apply elem_of_Permutation in Hm as [l Pl]. exists (map rev_get l), (highs hi'). split; [rewrite P, Pl; reflexivity|]. rewrite Pl in K. cbn [map length fmap list_fmap] in K. split_and!.
      + intros a Ha. apply elem_of_list_fmap in Ha as (r & -> & Hr). apply (Le r). rewrite Pl. right. exact Hr.
      + intros y Hy. apply F; [|exact Hy]. rewrite Pl. left.
      + lia.
  Qed.
  Lemma run_medians : forall v v0 s, halves v0 s -> length (highs s.2) <= length (lows s.1) <= S (length (highs s.2)) ->
    exists s' ms, run (median_step leb L H) s v = Ok (s', ms) /\ length ms = length v /\ forall i m, ms !! i = Some m -> lower_median le (v0 ++ take (S i) v) m.
  Proof.
    induction v as [|x v IH]; intros v0 s Hs Hl; cbn [run]; [eexists _, _; split; [reflexivity|]; split; [reflexivity|]; intros i m Hi; discriminate|].
    destruct (step_ok v0 s x Hs Hl) as (s1 & m1 & -> & Hs1 & Hl1 & M). cbn [mbind res_bind]. destruct (IH _ s1 Hs1 Hl1) as (s2 & ms & -> & Lm & Hm). cbn [mbind res_bind]. eexists _, _. split; [reflexivity|]. split; [cbn; lia|].
    intros [|i] m Hi; cbn in Hi; [injection Hi as <-; exact M|]. specialize (Hm i m Hi). rewrite <- app_assoc in Hm. exact Hm.
  Qed.
  Lemma medians_ok v : exists ms, medians leb L H v = Ok ms /\ length ms = length v /\ forall i m, ms !! i = Some m -> lower_median le (take (S i) v) m.
  Proof.
    unfold medians. destruct (run_medians v [] (mh_new L, mh_new H)) as (s & ms & E & Lm & Hm).
    - unfold halves. cbn [fst snd]. rewrite (bag_new _ L cl CL), (bag_new _ H ch CH). split; [reflexivity|]. intros x y Hx. inversion Hx.
    - cbn [fst snd]. rewrite (bag_new _ L cl CL), (bag_new _ H ch CH). cbn. lia.
    - rewrite E. cbn [mbind res_bind]. exists ms. auto.
  Qed.
End Median.
