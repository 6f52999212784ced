From Verif Require Import Prelude ArraySpec HeapModel HeapSpec BinHeapModel BinHeapSpec BinHeapProof Unwind BinHeapUnwindModel BinHeapUnwindSpec.

(** ** Calls that return do what the plain code does *)
Section Same.
  Context {W A : Type} (cmpU : A -> A -> uw W comparison) (cmp : A -> A -> comparison) (F : follows cmp cmpU).
  (** m, when it returns, takes the array as r does and answers the same *)
  Definition same {B} (m : uw (W * list A) B) (r : list A -> res (list A * B)) : Prop :=
    forall w d w' l b, m (w, d) = Ok ((w', l), Some b) -> r d = Ok (l, b).
  Lemma same_bind {B C} (m : uw (W * list A) B) (k : B -> uw (W * list A) C) r rk :
    same m r -> (forall b, same (k b) (rk b)) -> same (ubind m k) (fun d => '(l, b) ← r d; rk b l).
  Proof.
    intros Hm Hk w d w' l c H. unfold ubind in H. destruct (m (w, d)) as [[[w1 l1] [b|]]| |] eqn:E; cbn [mbind res_bind] in H; try discriminate.
    rewrite (Hm _ _ _ _ _ E). cbn [mbind res_bind]. exact (Hk b _ _ _ _ _ H).
  Qed.
  Lemma same_ext {B} (m : uw (W * list A) B) r r' : same m r -> (forall d, r d = r' d) -> same m r'.
  Proof. intros H E w d w' l b Hm. rewrite <- E. exact (H _ _ _ _ _ Hm). Qed.
  Lemma same_ret {B} (b : B) : same (uret b) (fun d => Ok (d, b)).
  Proof. intros w d w' l b' H. injection H as <- <- <-. reflexivity. Qed.
  Lemma same_at pos : same (at_u pos) (fun d => x ← vget d pos; Ok (d, x)).
  Proof. intros w d w' l b H. unfold at_u, uread in H. cbn [snd] in H. destruct (vget d pos) as [x| |]; try discriminate. injection H as <- <- <-. reflexivity. Qed.
  Lemma same_put pos x : same (put_u pos x) (fun d => d ← vset d pos x; Ok (d, tt)).
  Proof. intros w d w' l b H. unfold put_u, uwrite in H. cbn [fst snd] in H. destruct (vset d pos x) as [y| |]; cbn [mbind res_bind] in H; try discriminate. injection H as <- <- <-. reflexivity. Qed.
  Lemma same_len : same (uread (fun s => Ok (length s.2))) (fun d => Ok (d, length d)).
  Proof. intros w d w' l b H. injection H as <- <- <-. reflexivity. Qed.
  Lemma same_hole {B} elt pos (m : uw (W * list A) B) r : same m r -> same (hole_u elt pos m) r.
  Proof.
    intros Hm w d w' l b H. unfold hole_u in H. destruct (m (w, d)) as [[s1 [b1|]]| |] eqn:E; cbn [mbind res_bind] in H; try discriminate.
    - injection H as -> <-. exact (Hm _ _ _ _ _ E).
    - destruct (put_u pos elt s1) as [[s2 o2]| |]; discriminate.
  Qed.
  Lemma same_call a b : same (call_u cmpU a b) (fun d => Ok (d, cmp a b)).
  Proof. intros w d w' l c H. unfold call_u in H. cbn [fst snd] in H. destruct (cmpU a b w) as [[w1 o]| |] eqn:E; cbn [mbind res_bind] in H; try discriminate. injection H as <- <- ->. rewrite (F _ _ _ _ _ E). reflexivity. Qed.
  Lemma same_le a b : same (le_u cmpU a b) (fun d => Ok (d, c_le cmp a b)).
  Proof. eapply same_ext; [apply same_bind; [apply same_call|intros o; apply same_ret]|]. reflexivity. Qed.
  Lemma same_ge a b : same (ge_u cmpU a b) (fun d => Ok (d, c_ge cmp a b)).
  Proof. eapply same_ext; [apply same_bind; [apply same_call|intros o; apply same_ret]|]. reflexivity. Qed.
  Lemma same_lt a b : same (lt_u cmpU a b) (fun d => Ok (d, c_lt cmp a b)).
  Proof. eapply same_ext; [apply same_bind; [apply same_call|intros o; apply same_ret]|]. reflexivity. Qed.
  Lemma same_if {B} (t : bool) (m1 m2 : uw (W * list A) B) r1 r2 : same m1 r1 -> same m2 r2 -> same (if t then m1 else m2) (if t then r1 else r2).
  Proof. destruct t; auto. Qed.
  Lemma same_loop {B R R'} (f : R' -> list A * R) fuel (step : B -> uw (W * list A) (B + R)) (rstep : list A * B -> res ((list A * B) + R')) :
    (forall b, same (step b) (fun d => x ← rstep (d, b); Ok (match x with inl y => (y.1, inl y.2) | inr r => ((f r).1, inr (f r).2) end))) ->
    forall b, same (uloop fuel step b) (fun d => r ← rloop fuel rstep (d, b); Ok (f r)).
  Proof.
    intros H. induction fuel as [|fuel IH]; intros b w d w' l r E; [discriminate|]. cbn [uloop rloop] in *. unfold ubind in E.
    destruct (step b (w, d)) as [[[w1 l1] [x|]]| |] eqn:Es; cbn [mbind res_bind] in E; try discriminate. pose proof (H b _ _ _ _ _ Es) as Hs. cbn beta in Hs.
    destruct (rstep (d, b)) as [[[l2 b2]|r2]| |]; cbn [mbind res_bind fst snd] in Hs; try discriminate.
    - injection Hs as -> <-. exact (IH _ _ _ _ _ _ E).
    - injection Hs as Hl <-. cbn [mbind res_bind]. injection E as <- <- <-. rewrite <- Hl. destruct (f r2); reflexivity.
  Qed.
  Lemma same_for {X B} (xs : list X) (body : X -> B -> uw (W * list A) B) (rbody : X -> list A * B -> res (list A * B)) :
    (forall x b, same (body x b) (fun d => rbody x (d, b))) -> forall b, same (ufor xs body b) (fun d => rfor xs rbody (d, b)).
  Proof.
    intros H. induction xs as [|x xs IH]; intros b; [apply same_ret|]. cbn [ufor rfor]. eapply same_ext; [apply same_bind; [apply H|exact IH]|]. intros d. cbn beta. destruct (rbody x (d, b)) as [[l b']| |]; reflexivity.
  Qed.

  Lemma same_sift_up pos : same (sift_up_u cmpU pos) (fun d => l ← sift_up cmp d pos; Ok (l, tt)).
  Proof.
    eapply same_ext; [apply same_bind; [apply same_at|intros elt; apply (same_loop (fun l => (l, tt)) _ _ (fun '(data, pos) =>
      if 0 <? pos then
        let parent := (pos - 1) / 2 in
        p ← vget data parent;
        if c_le cmp elt p then data ← vset data pos elt; Ok (inr data)
        else data ← vset data pos p; Ok (inl (data, parent))
      else data ← vset data pos elt; Ok (inr data)))]|].
    - intros b. unfold up_step_u. destruct (0 <? b).
      + eapply same_ext; [apply same_bind; [apply same_at|]; intros p; apply same_bind; [apply same_hole, same_le|]; intros t; apply same_if; (apply same_bind; [apply same_put|intros ?; apply same_ret])|].
        intros d. cbn. destruct (vget d ((b - 1) / 2)) as [p| |]; cbn; try reflexivity. destruct (c_le cmp elt p); (match goal with |- context [vset ?x ?y ?z] => destruct (vset x y z); reflexivity end).
      + eapply same_ext; [apply same_bind; [apply same_put|intros ?; apply same_ret]|]. intros d. cbn. destruct (vset d b elt); reflexivity.
    - intros d. unfold sift_up. destruct (vget d pos); reflexivity.
  Qed.
  Lemma same_sift_down pos last : same (sift_down_range_u cmpU pos last) (fun d => l ← sift_down_range cmp d pos last; Ok (l, tt)).
  Proof.
    eapply same_ext; [apply same_bind; [apply same_at|intros elt; apply (same_loop (fun l => (l, tt)) _ _ (fun '(data, pos) =>
      let child := 2 * pos + 1 in
      if child <=? last - 2 then
        a ← vget data child;
        b ← vget data (child + 1);
        let child := if c_le cmp a b then child + 1 else child in
        x ← vget data child;
        if c_ge cmp elt x then data ← vset data pos elt; Ok (inr data)
        else data ← vset data pos x; Ok (inl (data, child))
      else if child =? last - 1 then
        x ← vget data child;
        if c_lt cmp elt x then data ← vset data pos x; data ← vset data child elt; Ok (inr data)
        else data ← vset data pos elt; Ok (inr data)
      else data ← vset data pos elt; Ok (inr data)))]|].
    - intros p. unfold down_step_u. cbv zeta. destruct (2 * p + 1 <=? last - 2); [|destruct (2 * p + 1 =? last - 1)].
      + eapply same_ext; [apply same_bind; [apply same_at|]; intros a; apply same_bind; [apply same_at|]; intros b; apply same_bind; [apply same_hole, same_le|]; intros t; apply same_bind; [apply same_at|]; intros x; apply same_bind; [apply same_hole, same_ge|]; intros t'; apply same_if; (apply same_bind; [apply same_put|intros ?; apply same_ret])|].
        intros d. cbn -[Nat.mul]. destruct (vget d (2 * p + 1)) as [a| |]; cbn -[Nat.mul]; try reflexivity. destruct (vget d (2 * p + 1 + 1)) as [b| |]; cbn -[Nat.mul]; try reflexivity.
        destruct (vget d (if c_le cmp a b then 2 * p + 1 + 1 else 2 * p + 1)) as [x| |]; cbn -[Nat.mul]; try reflexivity. destruct (c_ge cmp elt x); (match goal with |- context [vset ?x ?y ?z] => destruct (vset x y z); reflexivity end).
      + eapply same_ext; [apply same_bind; [apply same_at|]; intros x; apply same_bind; [apply same_hole, same_lt|]; intros t'; apply same_if; [apply same_bind; [apply same_put|]; intros ?; apply same_bind; [apply same_put|intros ?; apply same_ret]|apply same_bind; [apply same_put|intros ?; apply same_ret]]|].
        intros d. cbn -[Nat.mul]. destruct (vget d (2 * p + 1)) as [x| |]; cbn -[Nat.mul]; try reflexivity. destruct (c_lt cmp elt x).
        * destruct (vset d p x) as [d1| |]; cbn -[Nat.mul]; try reflexivity. destruct (vset d1 (2 * p + 1) elt); reflexivity.
        * destruct (vset d p elt); reflexivity.
      + eapply same_ext; [apply same_bind; [apply same_put|intros ?; apply same_ret]|]. intros d. cbn. destruct (vset d p elt); reflexivity.
    - intros d. unfold sift_down_range. destruct (vget d pos); reflexivity.
  Qed.
  Lemma same_sift_bottom : same (sift_down_to_bottom_u cmpU) (fun d => l ← sift_down_to_bottom cmp d; Ok (l, tt)).
  Proof.
    eapply same_ext; [apply same_bind; [apply same_len|]; intros last; apply same_bind; [apply same_at|]; intros elt; apply same_bind; [apply (same_loop (fun s : list A * nat => s) _ _ (fun '(data, pos) =>
      let child := 2 * pos + 1 in
      if child <=? last - 2 then
        a ← vget data child;
        b ← vget data (child + 1);
        let child := if c_le cmp a b then child + 1 else child in
        x ← vget data child;
        data ← vset data pos x; Ok (inl (data, child))
      else if child =? last - 1 then
        x ← vget data child;
        data ← vset data pos x; Ok (inr (data, child))
      else Ok (inr (data, pos))))|intros pos; apply same_bind; [apply same_put|intros ?; apply same_sift_up]]|].
    - intros p. unfold bottom_step_u. cbv zeta. destruct (2 * p + 1 <=? last - 2); [|destruct (2 * p + 1 =? last - 1)].
      + eapply same_ext; [apply same_bind; [apply same_at|]; intros a; apply same_bind; [apply same_at|]; intros b; apply same_bind; [apply same_hole, same_le|]; intros t; apply same_bind; [apply same_at|]; intros x; apply same_bind; [apply same_put|intros ?; apply same_ret]|].
        intros d. cbn -[Nat.mul]. destruct (vget d (2 * p + 1)) as [a| |]; cbn -[Nat.mul]; try reflexivity. destruct (vget d (2 * p + 1 + 1)) as [b| |]; cbn -[Nat.mul]; try reflexivity.
        destruct (vget d (if c_le cmp a b then 2 * p + 1 + 1 else 2 * p + 1)) as [x| |]; cbn -[Nat.mul]; try reflexivity. destruct (vset d p x); reflexivity.
      + eapply same_ext; [apply same_bind; [apply same_at|]; intros x; apply same_bind; [apply same_put|intros ?; apply same_ret]|]. intros d. cbn -[Nat.mul]. destruct (vget d (2 * p + 1)) as [x| |]; cbn -[Nat.mul]; try reflexivity. destruct (vset d p x); reflexivity.
      + eapply same_ext; [apply same_ret|]. reflexivity.
    - intros d. unfold sift_down_to_bottom. cbn [mbind res_bind]. destruct (vget d 0) as [elt| |]; cbn [mbind res_bind]; try reflexivity.
      match goal with |- context [rloop ?f ?st ?s] => destruct (rloop f st s) as [[l pos]| |] end; cbn [mbind res_bind]; try reflexivity. destruct (vset l pos elt); reflexivity.
  Qed.
  Lemma same_push x : same (push_u cmpU x) (fun d => l ← bin_push cmp d x; Ok (l, tt)).
  Proof. intros w d w' l b H. exact (same_sift_up _ _ _ _ _ _ H). Qed.
  Lemma same_pop : same (pop_u cmpU) (fun d => '(r, l) ← bin_pop cmp d; Ok (l, r)).
  Proof.
    intros w d w' l b H. unfold pop_u, bin_pop in *. cbn [fst snd] in H. destruct (rev d) as [|item r] eqn:E.
    - injection H as <- <- <-. apply (f_equal (@rev A)) in E. rewrite rev_involutive in E. subst d. reflexivity.
    - destruct (rev r) as [|top rest]; [injection H as <- <- <-; reflexivity|].
      pose proof (same_bind _ _ _ _ same_sift_bottom (fun _ => same_ret (Some top)) _ _ _ _ _ H) as S. cbn beta in S. destruct (sift_down_to_bottom cmp (item :: rest)); cbn [mbind res_bind] in *; try discriminate. exact S.
  Qed.
  Lemma for_unit {X} (xs : list X) (body : X -> list A -> res (list A)) d :
    rfor xs (fun x s => l ← body x s.1; Ok (l, tt)) (d, tt) = (l ← rfor xs body d; Ok (l, tt)).
  Proof. revert d. induction xs as [|x xs IH]; intros d; [reflexivity|]. cbn [rfor fst]. destruct (body x d) as [l| |]; cbn [mbind res_bind]; [apply IH|reflexivity|reflexivity]. Qed.
  Lemma same_rebuild : same (rebuild_u cmpU) (fun d => l ← bin_rebuild cmp d; Ok (l, tt)).
  Proof.
    eapply same_ext; [apply same_bind; [apply same_len|]; intros len; apply (same_for _ _ (fun n s => l ← sift_down_range cmp s.1 n (length s.1); Ok (l, tt)))|].
    - intros n []. eapply same_ext; [apply same_bind; [apply same_len|]; intros last; apply same_sift_down|]. reflexivity.
    - intros d. cbn [mbind res_bind]. unfold bin_rebuild. apply (for_unit _ (fun n data => sift_down_range cmp data n (length data))).
  Qed.
  Lemma same_rebuild_tail start : same (rebuild_tail_u cmpU start) (fun d => l ← bin_rebuild_tail cmp d start; Ok (l, tt)).
  Proof.
    intros w d w' l b H. unfold rebuild_tail_u, bin_rebuild_tail in *. cbv zeta in *. unfold ubind at 1, uread at 1 in H. cbn [snd mbind res_bind] in H. destruct (start =? length d); [exact (same_ret tt _ _ _ _ _ H)|].
    match type of H with (if ?c then _ else _) _ = _ => destruct c end; [exact (same_rebuild _ _ _ _ _ H)|].
    rewrite <- (for_unit _ (fun n data => sift_up cmp data n)). refine (same_for _ _ (fun n s => l ← sift_up cmp s.1 n; Ok (l, tt)) _ tt _ _ _ _ _ H). intros n []. apply same_sift_up.
  Qed.
  Lemma same_append other : same (append_u cmpU other) (fun d => bin_append cmp d other).
  Proof.
    intros w d w' l b H. unfold append_u, bin_append in *. cbn [fst snd] in H. destruct (length d <? length other).
    - pose proof (same_bind _ _ _ _ (same_rebuild_tail _) (fun _ => same_ret (@nil A)) _ _ _ _ _ H) as S. cbn beta in S. destruct (bin_rebuild_tail cmp (other ++ d) (length other)); cbn [mbind res_bind] in *; try discriminate. exact S.
    - pose proof (same_bind _ _ _ _ (same_rebuild_tail _) (fun _ => same_ret (@nil A)) _ _ _ _ _ H) as S. cbn beta in S. destruct (bin_rebuild_tail cmp (d ++ other) (length d)); cbn [mbind res_bind] in *; try discriminate. exact S.
  Qed.
End Same.

(** ** Calls that return or unwind *)
Section Left.
  Context {W A : Type} (cmpU : A -> A -> uw W comparison) (Ca : calm cmpU).
  Lemma at_ok (w : W) (d : list A) p x : d !! p = Some x -> at_u p (w, d) = Ok ((w, d), Some x).
  Proof. intros H. apply uread_ok. exact (vget_ok _ _ _ H). Qed.
  Lemma put_ok (w : W) (d : list A) p x : p < length d -> put_u p x (w, d) = Ok ((w, <[p := x]> d), Some tt).
  Proof. intros H. apply uwrite_ok. cbn [fst snd]. rewrite vset_ok by exact H. reflexivity. Qed.
  Lemma hole_cases elt p (f : comparison -> bool) a b w d : p < length d ->
    (exists w', hole_u elt p (o <~ call_u cmpU a b ;~ uret (f o)) (w, d) = Ok ((w', <[p := elt]> d), None)) \/
    exists w' o, hole_u elt p (o <~ call_u cmpU a b ;~ uret (f o)) (w, d) = Ok ((w', d), Some (f o)) /\ forall cmp, follows cmp cmpU -> o = cmp a b.
  Proof.
    intros Hp. destruct (Ca a b w) as (w' & o & E). unfold hole_u, ubind, call_u. cbn [fst snd]. rewrite E. cbn [mbind res_bind]. destruct o as [c|].
    - right. exists w', c. split; [reflexivity|]. intros cmp F. exact (F _ _ _ _ _ E).
    - left. exists w'. cbn [mbind res_bind]. rewrite put_ok by exact Hp. reflexivity.
  Qed.

  (** l is a permutation of data that agrees with it from e on *)
  Definition moved (e : nat) (data l : list A) : Prop := l ≡ₚ data /\ forall i, e <= i -> l !! i = data !! i.
  Lemma moved_refl e l : moved e l l.
  Proof. split; auto. Qed.
  Lemma moved_trans e l1 l2 l3 : moved e l1 l2 -> moved e l2 l3 -> moved e l1 l3.
  Proof. intros [P1 O1] [P2 O2]. split; [rewrite P2; exact P1|]. intros i Hi. rewrite O2, O1 by exact Hi. reflexivity. Qed.
  Lemma moved_length e l1 l2 : moved e l1 l2 -> length l2 = length l1.
  Proof. intros [P _]. apply Permutation_length, P. Qed.

  Lemma sift_up_left e data pos w elt : pos < e <= length data -> data !! pos = Some elt ->
    match sift_up_u cmpU pos (w, data) with
    | Ok ((_, l), Some _) => moved e data l
    | Ok ((_, l), None) => moved e data l /\ exists p, 0 < p <= pos /\ l !! p = Some elt /\
        forall cmp le d, follows cmp cmpU -> ordered cmp le -> up_inv le e pos (val d data) -> up_inv le e p (val d l)
    | _ => False
    end.
  Proof.
    intros Hpos Helt. unfold sift_up_u. rewrite (ubind_ok _ _ _ _ _ (at_ok w data pos elt Helt)).
    pose proof (uloop_inv (fun m p (s : W * list A) => p = m /\ p <= pos /\ moved e data (<[p := elt]> s.2) /\ length s.2 = length data /\
        forall cmp le d, follows cmp cmpU -> ordered cmp le -> up_inv le e pos (val d data) -> up_inv le e p (val d (<[p := elt]> s.2)))
      (fun _ s => moved e data s.2)
      (fun s => moved e data s.2 /\ exists p, 0 < p <= pos /\ s.2 !! p = Some elt /\ forall cmp le d, follows cmp cmpU -> ordered cmp le -> up_inv le e pos (val d data) -> up_inv le e p (val d s.2)) (up_step_u cmpU elt)) as Hl.
    match type of Hl with ?P -> _ => assert (HP : P) end; [|specialize (Hl HP (S pos) pos pos (w, data) ltac:(lia)); clear HP].
    - intros m p [w1 l] (-> & Hp & [Pl Ol] & Ll & Il). cbn [snd] in *. unfold up_step_u. destruct (Nat.ltb_spec 0 m) as [H0|H0].
      + pose proof (par_spec m H0) as Pp. change ((m - 1) / 2) with (par m). destruct (lookup_lt_is_Some_2 l (par m)) as [x Hx]; [lia|]. rewrite (ubind_ok _ _ _ _ _ (at_ok w1 l (par m) x Hx)).
        destruct (hole_cases elt m (fun o => match o with Gt => false | _ => true end) elt x w1 l) as [(w2 & E)|(w2 & o & E & Ho)]; [lia| |]; fold (le_u cmpU elt x) in E.
        * rewrite (ubind_unwound _ _ _ _ E). cbn [snd]. split; [split; assumption|]. exists m. split; [lia|]. split; [apply list_lookup_insert; lia|exact Il].
        * rewrite (ubind_ok _ _ _ _ _ E). destruct (match o with Gt => false | _ => true end) eqn:C.
          -- rewrite (ubind_ok _ _ _ _ _ (put_ok w2 l m elt ltac:(lia))). cbn. split; assumption.
          -- rewrite (ubind_ok _ _ _ _ _ (put_ok w2 l m x ltac:(lia))). cbn. exists (par m). split; [lia|]. split; [reflexivity|]. split; [lia|]. split; [split; [rewrite hole_perm by (try lia; exact Hx); exact Pl|intros i Hi; rewrite hole_outside by lia; rewrite <- Ol by exact Hi; symmetry; apply list_lookup_insert_ne; lia]|].
             split; [rewrite insert_length; exact Ll|]. intros cmp le d F L H. eapply up_inv_ext; [intros i _; apply hole_val; [lia|lia|exact Hx]|lia|]. apply (up_step le); [apply (or_trans _ _ L)|apply (or_total cmp le L)|eauto|lia|].
             rewrite (val_some d _ m elt) by (apply list_lookup_insert; lia). rewrite (val_some d _ (par m) x) by (rewrite list_lookup_insert_ne by lia; exact Hx). apply (c_le_false cmp le L). unfold c_le. rewrite <- (Ho cmp F). exact C.
      + rewrite (ubind_ok _ _ _ _ _ (put_ok w1 l m elt ltac:(lia))). cbn. split; assumption.
    - cbn [snd] in Hl. rewrite (list_insert_id data pos elt Helt) in Hl. specialize (Hl (conj eq_refl (conj (Nat.le_refl _) (conj (moved_refl _ _) (conj eq_refl (fun _ _ _ _ _ H => H)))))).
      destruct (uloop (S pos) (up_step_u cmpU elt) pos (w, data)) as [[[w' l] [[]|]]| |]; exact Hl.
  Qed.
  Lemma sift_down_left data pos e w : pos < e <= length data ->
    match sift_down_range_u cmpU pos e (w, data) with Ok ((_, l), _) => moved e data l | _ => False end.
  Proof.
    intros Hpos. destruct (lookup_lt_is_Some_2 data pos) as [elt Helt]; [lia|]. unfold sift_down_range_u. rewrite (ubind_ok _ _ _ _ _ (at_ok w data pos elt Helt)).
    pose proof (uloop_inv (fun m p (s : W * list A) => m = e - p /\ p < e /\ moved e data (<[p := elt]> s.2) /\ length s.2 = length data) (fun _ s => moved e data s.2) (fun s => moved e data s.2) (down_step_u cmpU elt e)) as Hl.
    match type of Hl with ?P -> _ => assert (HP : P) end; [|specialize (Hl HP (S e) (e - pos) pos (w, data) ltac:(lia)); clear HP].
    - intros m p [w1 l] (-> & Hp & [Pl Ol] & Ll). cbn [snd] in *. unfold down_step_u. cbv zeta.
      assert (Step : forall c x, p < c < e -> l !! c = Some x -> moved e data (<[c := elt]> (<[p := x]> l))).
      { intros c x Hc Hx. split; [rewrite hole_perm by (try lia; exact Hx); exact Pl|]. intros i Hi. rewrite hole_outside by lia. rewrite <- Ol by exact Hi. symmetry. apply list_lookup_insert_ne. lia. }
      destruct (Nat.leb_spec (2 * p + 1) (e - 2)) as [Hc|Hc]; [|destruct (Nat.eqb_spec (2 * p + 1) (e - 1)) as [Hc1|Hc1]].
      + destruct (lookup_lt_is_Some_2 l (2 * p + 1)) as [a Ha]; [lia|]. destruct (lookup_lt_is_Some_2 l (2 * p + 1 + 1)) as [b Hb]; [lia|].
        rewrite (ubind_ok _ _ _ _ _ (at_ok w1 l _ _ Ha)), (ubind_ok _ _ _ _ _ (at_ok w1 l _ _ Hb)).
        destruct (hole_cases elt p (fun o => match o with Gt => false | _ => true end) a b w1 l) as [(w2 & E)|(w2 & o & E & Ho)]; [lia| |]; fold (le_u cmpU a b) in E.
        * rewrite (ubind_unwound _ _ _ _ E). cbn [snd]. split; assumption.
        * rewrite (ubind_ok _ _ _ _ _ E). set (c := if match o with Gt => false | _ => true end then 2 * p + 1 + 1 else 2 * p + 1).
          assert (Hcc : p < c < e) by (subst c; destruct o; lia). destruct (lookup_lt_is_Some_2 l c) as [x Hx]; [lia|]. rewrite (ubind_ok _ _ _ _ _ (at_ok w2 l _ _ Hx)).
          destruct (hole_cases elt p (fun o => match o with Lt => false | _ => true end) elt x w2 l) as [(w3 & E3)|(w3 & o3 & E3 & Ho3)]; [lia| |]; fold (ge_u cmpU elt x) in E3.
          -- rewrite (ubind_unwound _ _ _ _ E3). cbn [snd]. split; assumption.
          -- rewrite (ubind_ok _ _ _ _ _ E3). destruct (match o3 with Lt => false | _ => true end).
             ++ rewrite (ubind_ok _ _ _ _ _ (put_ok w3 l p elt ltac:(lia))). cbn. split; assumption.
             ++ rewrite (ubind_ok _ _ _ _ _ (put_ok w3 l p x ltac:(lia))). cbn. exists (e - c). split; [lia|]. split; [reflexivity|]. split; [lia|]. split; [apply Step; [lia|exact Hx]|rewrite insert_length; exact Ll].
      + destruct (lookup_lt_is_Some_2 l (2 * p + 1)) as [x Hx]; [lia|]. rewrite (ubind_ok _ _ _ _ _ (at_ok w1 l _ _ Hx)).
        destruct (hole_cases elt p (fun o => match o with Lt => true | _ => false end) elt x w1 l) as [(w3 & E3)|(w3 & o3 & E3 & Ho3)]; [lia| |]; fold (lt_u cmpU elt x) in E3.
        * rewrite (ubind_unwound _ _ _ _ E3). cbn [snd]. split; assumption.
        * rewrite (ubind_ok _ _ _ _ _ E3). destruct (match o3 with Lt => true | _ => false end).
          -- rewrite (ubind_ok _ _ _ _ _ (put_ok w3 l p x ltac:(lia))). rewrite (ubind_ok _ _ _ _ _ (put_ok w3 (<[p := x]> l) (2 * p + 1) elt ltac:(rewrite insert_length; lia))). cbn -[Nat.mul]. apply Step; [lia|exact Hx].
          -- rewrite (ubind_ok _ _ _ _ _ (put_ok w3 l p elt ltac:(lia))). cbn. split; assumption.
      + rewrite (ubind_ok _ _ _ _ _ (put_ok w1 l p elt ltac:(lia))). cbn. split; assumption.
    - cbn [snd] in Hl. rewrite (list_insert_id data pos elt Helt) in Hl. specialize (Hl (conj eq_refl (conj (proj1 Hpos) (conj (moved_refl _ _) eq_refl)))).
      destruct (uloop (S e) (down_step_u cmpU elt e) pos (w, data)) as [[[w' l] [[]|]]| |]; exact Hl.
  Qed.
  Lemma up_bot (le : A -> A -> Prop) e p f : up_inv le e p f -> bot_inv le e p f.
  Proof. intros [H1 H2]. split; [intros i Hi Hn _; apply H1; assumption|exact H2]. Qed.
  Lemma sift_bottom_left item rest w : let data := item :: rest in
    match sift_down_to_bottom_u cmpU (w, data) with
    | Ok ((_, l), Some _) => l ≡ₚ data
    | Ok ((_, l), None) => l ≡ₚ data /\ exists p, l !! p = Some item /\
        forall cmp le d, follows cmp cmpU -> ordered cmp le -> heap_on le 1 (length data) (val d data) -> bot_inv le (length data) p (val d l)
    | _ => False
    end.
  Proof.
    intros data. set (e := length data). assert (Hlen : 0 < e) by (cbn; lia). assert (Helt : data !! 0 = Some item) by reflexivity. unfold sift_down_to_bottom_u. rewrite (ubind_ok _ _ _ (w, data) e) by reflexivity. rewrite (ubind_ok _ _ _ _ _ (at_ok w data 0 item Helt)).
    pose proof (uloop_inv (fun m p (s : W * list A) => m = e - p /\ p < e /\ length s.2 = e /\ <[p := item]> s.2 ≡ₚ data /\
        forall cmp le d, follows cmp cmpU -> ordered cmp le -> heap_on le 1 e (val d data) -> bot_inv le e p (val d (<[p := item]> s.2)))
      (fun p s => p < e /\ length s.2 = e /\ <[p := item]> s.2 ≡ₚ data /\ forall cmp le d, follows cmp cmpU -> ordered cmp le -> heap_on le 1 e (val d data) -> up_inv le e p (val d (<[p := item]> s.2)))
      (fun s => s.2 ≡ₚ data /\ exists p, s.2 !! p = Some item /\ forall cmp le d, follows cmp cmpU -> ordered cmp le -> heap_on le 1 e (val d data) -> bot_inv le e p (val d s.2)) (bottom_step_u cmpU item e)) as Hl.
    match type of Hl with ?P -> _ => assert (HP : P) end; [|specialize (Hl HP (S e) e 0 (w, data) ltac:(lia)); clear HP].
    - intros m p [w1 l] (-> & Hp & Ll & Pl & Il). cbn [snd] in *. unfold bottom_step_u. cbv zeta.
      destruct (Nat.leb_spec (2 * p + 1) (e - 2)) as [Hc|Hc]; [|destruct (Nat.eqb_spec (2 * p + 1) (e - 1)) as [Hc1|Hc1]].
      + destruct (lookup_lt_is_Some_2 l (2 * p + 1)) as [a Ha]; [lia|]. destruct (lookup_lt_is_Some_2 l (2 * p + 1 + 1)) as [b Hb]; [lia|].
        rewrite (ubind_ok _ _ _ _ _ (at_ok w1 l _ _ Ha)), (ubind_ok _ _ _ _ _ (at_ok w1 l _ _ Hb)).
        destruct (hole_cases item p (fun o => match o with Gt => false | _ => true end) a b w1 l) as [(w2 & E)|(w2 & o & E & Ho)]; [lia| |]; fold (le_u cmpU a b) in E.
        * rewrite (ubind_unwound _ _ _ _ E). cbn [snd]. split; [exact Pl|]. exists p. split; [apply list_lookup_insert; lia|exact Il].
        * rewrite (ubind_ok _ _ _ _ _ E). remember (if match o with Gt => false | _ => true end then 2 * p + 1 + 1 else 2 * p + 1) as c eqn:Ec.
          assert (Hcc : c = 2 * p + 1 \/ c = 2 * p + 2) by (subst c; destruct o; lia). destruct (child_cases e p c ltac:(lia) Hc Hcc) as [Hce Hcp].
          destruct (lookup_lt_is_Some_2 l c) as [x Hx]; [lia|]. rewrite (ubind_ok _ _ _ _ _ (at_ok w2 l _ _ Hx)). rewrite (ubind_ok _ _ _ _ _ (put_ok w2 l p x ltac:(lia))). unfold uret. cbn [snd].
          exists (e - c). split; [lia|]. split; [reflexivity|]. split; [lia|]. split; [rewrite insert_length; exact Ll|]. split; [rewrite hole_perm by (try lia; exact Hx); exact Pl|].
          intros cmp le d F L H. eapply bot_inv_ext; [intros i _; apply hole_val; [lia|lia|exact Hx]|lia|]. apply (bot_step le e p c); [eauto|exact Hce|exact Hcp|].
          eapply larger_child; [exact L|lia|exact Ha|exact Hb|rewrite Ec, (Ho cmp F); reflexivity|exact Hx].
      + pose proof (par_child p) as [Pc _]. destruct (lookup_lt_is_Some_2 l (2 * p + 1)) as [x Hx]; [lia|]. rewrite (ubind_ok _ _ _ _ _ (at_ok w1 l _ _ Hx)). rewrite (ubind_ok _ _ _ _ _ (put_ok w1 l p x ltac:(lia))). unfold uret. cbn [snd].
        split; [lia|]. split; [rewrite insert_length; exact Ll|]. split; [rewrite hole_perm by (try lia; exact Hx); exact Pl|].
        intros cmp le d F L H. apply (bot_stop le).
        * eapply bot_inv_ext; [intros i _; apply hole_val; [lia|lia|exact Hx]|lia|]. apply (bot_step le e p); [eauto|lia|exact Pc|]. intros s Hs Es. pose proof (par_spec s ltac:(lia)).
          assert (s = 2 * p + 1) as -> by lia. apply le_refl. apply (or_total cmp le L).
        * intros s Hs Es. pose proof (par_spec s ltac:(lia)). lia.
      + unfold uret. cbn [snd]. split; [exact Hp|]. split; [exact Ll|]. split; [exact Pl|]. intros cmp le d F L H. apply (bot_stop le); [eauto|]. intros s Hs Es. pose proof (par_spec s ltac:(lia)). lia.
    - cbn [snd] in Hl. match type of Hl with ?P -> _ => assert (HP : P) end.
      { split; [lia|]. split; [exact Hlen|]. split; [reflexivity|]. rewrite list_insert_id by exact Helt. split; [reflexivity|]. intros cmp le d F L H. split; [intros i Hi Hne0 Hp0; apply H; lia|lia]. }
      specialize (Hl HP). clear HP. unfold ubind at 1. destruct (uloop (S e) (bottom_step_u cmpU item e) 0 (w, data)) as [[[w' l] [p|]]| |]; cbn [mbind res_bind]; [|exact Hl|contradiction|contradiction].
      cbn [snd] in Hl. destruct Hl as (Hp & Ll & Pl & Il). rewrite (ubind_ok _ _ _ _ _ (put_ok w' l p item ltac:(lia))).
      pose proof (sift_up_left e (<[p := item]> l) p w' item ltac:(rewrite insert_length; lia) ltac:(apply list_lookup_insert; lia)) as Hu.
      destruct (sift_up_u cmpU p (w', <[p := item]> l)) as [[[w2 l2] [[]|]]| |]; try contradiction; [destruct Hu as [Hu _]; rewrite Hu; exact Pl|].
      destruct Hu as ((Hu & _) & p' & _ & Hp' & I'). split; [rewrite Hu; exact Pl|]. exists p'. split; [exact Hp'|]. intros cmp le d F L H. apply up_bot. eapply I'; eauto.
  Qed.
  Lemma rebuild_left w data : match rebuild_u cmpU (w, data) with Ok ((_, l), _) => l ≡ₚ data | _ => False end.
  Proof.
    unfold rebuild_u. rewrite (ubind_ok _ _ _ (w, data) (length data)) by reflexivity.
    pose proof (ufor_inv (fun _ (_ : unit) (s : W * list A) => s.2 ≡ₚ data) (fun s => s.2 ≡ₚ data) (rev (seq 0 (length data / 2))) (fun n _ => last <~ uread (fun s => Ok (length s.2)) ;~ sift_down_range_u cmpU n last)) as Hf.
    match type of Hf with ?P -> _ => assert (HP : P) end; [|specialize (Hf HP tt (w, data) (Permutation_refl _))].
    - intros d x rest b [w1 l] Hx Hl. cbn [snd] in Hl. assert (Hin : x ∈ rev (seq 0 (length data / 2))) by (rewrite Hx; apply elem_of_app; right; left). apply elem_of_list_In, in_rev, in_seq in Hin.
      rewrite (ubind_ok _ _ _ (w1, l) (length l)) by reflexivity. pose proof (Permutation_length Hl) as Ll. pose proof (Nat.div_mod (length data) 2 ltac:(lia)).
      pose proof (sift_down_left l x (length l) w1 ltac:(lia)) as Hs. destruct (sift_down_range_u cmpU x (length l) (w1, l)) as [[[w2 l2] [o|]]| |]; try contradiction; destruct Hs as [Hs _]; cbn [snd]; rewrite Hs; exact Hl.
    - match type of Hf with match ?t with _ => _ end => destruct t as [[[w2 l2] [o|]]| |]; exact Hf end.
  Qed.
  Lemma rebuild_tail_left w data start : start <= length data -> match rebuild_tail_u cmpU start (w, data) with Ok ((_, l), _) => l ≡ₚ data | _ => False end.
  Proof.
    intros Hs. unfold rebuild_tail_u. rewrite (ubind_ok _ _ _ (w, data) (length data)) by reflexivity. cbv zeta. destruct (start =? length data); [apply Permutation_refl|].
    match goal with |- context [if ?c then rebuild_u cmpU else _] => destruct c end; [apply rebuild_left|].
    pose proof (ufor_inv (fun _ (_ : unit) (s : W * list A) => s.2 ≡ₚ data) (fun s => s.2 ≡ₚ data) (range start (length data)) (fun i _ => sift_up_u cmpU i)) as Hf.
    match type of Hf with ?P -> _ => assert (HP : P) end; [|specialize (Hf HP tt (w, data) (Permutation_refl _))].
    - intros d x rest b [w1 l] Hx Hl. cbn [snd] in Hl. assert (Hin : x ∈ range start (length data)) by (rewrite Hx; apply elem_of_app; right; left). unfold range in Hin. apply elem_of_seq in Hin.
      pose proof (Permutation_length Hl) as Ll. destruct (lookup_lt_is_Some_2 l x) as [elt Helt]; [lia|].
      pose proof (sift_up_left (length l) l x w1 elt ltac:(lia) Helt) as Hu. destruct (sift_up_u cmpU x (w1, l)) as [[[w2 l2] [o|]]| |]; try contradiction; cbn [snd]; [destruct Hu as [Hu _]|destruct Hu as [[Hu _] _]]; rewrite Hu; exact Hl.
    - match type of Hf with match ?t with _ => _ end => destruct t as [[[w2 l2] [o|]]| |]; exact Hf end.
  Qed.
End Left.
