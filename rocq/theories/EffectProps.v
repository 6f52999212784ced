(** C77: the searches of FenwickTree, Segtree and LazySegtree with predicates that have side effects. *)
From Verif Require Import Prelude UtilModel UtilProof ArraySpec FenwickSpec FenwickModel FenwickProof FenwickProps
  SegtreeSpec SegtreeModel SegtreeProof SegtreeProps LazySpec LazyModel LazyTop PrefixRelProof
  BisectSpec EffectSpec EffectModel EffectProof EffectLazyProof.

Lemma to_nat_log2_up n : Z.to_nat (Z.log2_up (Z.of_nat n)) = Nat.log2_up n.
Proof.
  destruct (decide (n <= 1)) as [H|H].
  - destruct n as [|[|]]; [reflexivity|reflexivity|lia].
  - symmetry. apply Nat.log2_up_unique; [apply Z2Nat.inj_lt with (n := 0%Z); [lia|apply Z.log2_up_nonneg|apply Z.log2_up_pos; lia]|].
    destruct (Z.log2_up_spec (Z.of_nat n)) as [H1 H2]; [lia|].
    pose proof (Z.log2_up_pos (Z.of_nat n) ltac:(lia)).
    split.
    + apply Nat2Z.inj_lt. rewrite Nat2Z.inj_pow, Nat2Z.inj_pred, Z2Nat.id by lia. exact H1.
    + apply Nat2Z.inj_le. rewrite Nat2Z.inj_pow, Z2Nat.id by lia. exact H2.
Qed.

(** ** Fenwick tree *)

(** C77: `partition_point` with an FnMut predicate asks at most log2 n + 1 questions, about prefix sums, and is a
    binary search whatever it is answered; a panic of the predicate comes straight through. *)
Theorem C77_partition_point : forall {T U : Type} (zero : T) (add sub : T -> T -> T) (addu : T -> U -> T),
  fw_laws zero add addu ->
  forall (a0 : list T) (ops : list (fw_op T U)) (t : fenwick T) (a : list T), fw_reached zero add sub addu a0 ops t a ->
  forall {σ} (pred : σ -> T -> res (σ * bool)) (st : σ),
    (a = [] -> fw_partition_point_fx zero add t pred st = Panic) /\
    (0 < length a -> (Z.of_nat (length a) < 2 ^ 64)%Z ->
     bisect (fun k st => pred st (mprod zero add (slice a 0 k))) (Nat.log2 (length a) + 1) st 0 (length a + 1)
       (fw_partition_point_fx zero add t pred st)).
Proof.
  intros T U zero add sub addu Lw a0 ops t a R%(fw_reached_inv zero add sub addu Lw) σ pred st.
  destruct Lw as [LM LC LU]. split.
  - intros ->. apply (partition_point_fx_empty zero add t [] R). reflexivity.
  - apply (partition_point_bisect zero add LM t a R).
Qed.
Print Assumptions C77_partition_point.

(** ** Segment tree *)
Section Shape.
  Context {S : Type} (e : S) (op : S -> S -> S).

  Lemma st_step_shape t o t' x : st_step e op t o = Ok (t', x) ->
    sg_n t' = sg_n t /\ sg_size t' = sg_size t /\ sg_log t' = sg_log t.
  Proof.
    destruct o; cbn [st_step]; intros H; apply rbind_ok_inv in H as (y & H & E); [|injection E as <- <-; auto..].
    injection E as <- <-. unfold st_set in H.
    apply rbind_ok_inv in H as (u & _ & H). apply rbind_ok_inv in H as (d1 & _ & H).
    apply rbind_ok_inv in H as (d2 & _ & H). injection H as <-. auto.
  Qed.

  Lemma run_shape ops : forall t t' outs, run (st_step e op) t ops = Ok (t', outs) ->
    sg_n t' = sg_n t /\ sg_size t' = sg_size t /\ sg_log t' = sg_log t.
  Proof.
    induction ops as [|o ops IH]; intros t t' outs H; cbn [run] in H.
    - injection H as <- <-. auto.
    - apply rbind_ok_inv in H as ([t1 x] & H1 & H). apply rbind_ok_inv in H as ([t2 xs] & H2 & H).
      injection H as <- <-. apply st_step_shape in H1. apply IH in H2. lia || (destruct H1 as (-> & -> & ->) in H2; exact H2).
  Qed.

  Lemma st_from_shape v t : st_from e op v = Ok t -> (Z.of_nat (length v) < 2 ^ 32)%Z ->
    sg_n t = length v /\ sg_log t = Nat.log2_up (length v).
  Proof.
    intros H Hv. unfold st_from in H. rewrite Z.mod_small in H by lia. rewrite ceil_lg_spec in H by lia.
    cbn [mbind res_bind] in H. apply rbind_ok_inv in H as (d1 & _ & H). apply rbind_ok_inv in H as (d2 & _ & H).
    injection H as <-. cbn. split; [reflexivity|apply to_nat_log2_up].
  Qed.

  Lemma reached_shape (L : monoid_laws e op) v ops t a : reached e op v ops t a ->
    sg_log t = Nat.log2_up (length a) /\ sg_size t = 2 ^ Nat.log2_up (length a).
  Proof.
    intros R. pose proof (reached_inv e op L v ops t a R) as I. destruct R as [[outs R] _].
    apply rbind_ok_inv in R as (t0 & H0 & H).
    destruct (decide (Z.of_nat (length v) < 2 ^ 32)%Z) as [Hv|Hv].
    - apply run_shape in H as (E1 & E2 & E3). apply st_from_shape in H0 as [E4 E5]; [|exact Hv].
      assert (length a = length v) as -> by (rewrite <- (inv_n _ _ _ _ I); congruence).
      split; [congruence|]. rewrite (inv_size _ _ _ _ I). congruence.
    - rewrite (st_from_huge e op v) in H0 by lia. discriminate.
  Qed.
End Shape.

(** C77: `max_right` with a predicate that has effects. *)
Theorem C77_max_right : forall {S : Type} (e : S) (op : S -> S -> S), monoid_laws e op ->
  forall v ops (t : segtree S) a, reached e op v ops t a ->
  forall {σ} (f : σ -> S -> res (σ * bool)) (st : σ) (l : nat),
  let n := length a in let m := Nat.log2_up n in
    (n < l -> st_max_right_fx e op t l f st = Panic) /\
    (l <= n -> f st e = Panic -> st_max_right_fx e op t l f st = Panic) /\
    (forall st1, l <= n -> f st e = Ok (st1, false) -> st_max_right_fx e op t l f st = Panic) /\
    (forall st1, l = n -> f st e = Ok (st1, true) -> st_max_right_fx e op t l f st = Ok (st1, n)) /\
    (forall st1, l < n -> f st e = Ok (st1, true) ->
       exists o, bisect (fun k st => f st (mprod e op (slice a l k))) (2 * m + 1) st1 l (2 ^ m + 1) o /\
         st_max_right_fx e op t l f st = (fun '(st, k) => (st, if k =? 2 ^ m then n else k)) <$> o).
Proof.
  intros S e op L v ops t a R σ f st l n m.
  destruct (reached_shape e op L v ops t a R) as [Hlog Hsize].
  pose proof (reached_inv e op L v ops t a R) as I. pose proof (inv_n _ _ _ _ I) as Hn.
  unfold st_max_right_fx. rewrite Hn. fold n.
  split; [intros H; destruct (Nat.leb_spec l n); [lia|reflexivity]|].
  split; [intros H E; destruct (Nat.leb_spec l n); [|lia]; cbn [rassert mbind res_bind]; rewrite E; reflexivity|].
  split; [intros st1 H E; destruct (Nat.leb_spec l n); [|lia]; cbn [rassert mbind res_bind]; rewrite E; reflexivity|].
  split; intros st1 H E.
  - destruct (Nat.leb_spec l n); [|lia]. cbn [rassert mbind res_bind]. rewrite E. cbn [rassert mbind res_bind].
    destruct (Nat.eqb_spec l n); [reflexivity|lia].
  - destruct (Nat.leb_spec l n); [|lia]. cbn [rassert mbind res_bind]. rewrite E. cbn [rassert mbind res_bind].
    destruct (Nat.eqb_spec l n); [lia|].
    destruct (max_right_bisect e op L t a I f l st1 ltac:(lia)) as (o & B & Eq).
    rewrite Hlog, Hsize in B. rewrite Hn in Eq. exists o. split; [exact B|]. etransitivity; [exact Eq|]. rewrite Hsize.
    destruct o as [[]| |]; reflexivity.
Qed.
Print Assumptions C77_max_right.

(** C77: `min_left` with a predicate that has effects; the search is over the number of elements taken. *)
Theorem C77_min_left : forall {S : Type} (e : S) (op : S -> S -> S), monoid_laws e op ->
  forall v ops (t : segtree S) a, reached e op v ops t a ->
  forall {σ} (f : σ -> S -> res (σ * bool)) (st : σ) (r : nat),
  let n := length a in let m := Nat.log2_up n in
    (n < r -> st_min_left_fx e op t r f st = Panic) /\
    (r <= n -> f st e = Panic -> st_min_left_fx e op t r f st = Panic) /\
    (forall st1, r <= n -> f st e = Ok (st1, false) -> st_min_left_fx e op t r f st = Panic) /\
    (forall st1, r <= n -> f st e = Ok (st1, true) ->
       exists o, bisect (fun j st => f st (mprod e op (slice a (r - j) r))) (2 * m + 1) st1 0 (r + 1) o /\
         st_min_left_fx e op t r f st = (fun '(st, j) => (st, r - j)) <$> o).
Proof.
  intros S e op L v ops t a R σ f st r n m.
  destruct (reached_shape e op L v ops t a R) as [Hlog Hsize].
  pose proof (reached_inv e op L v ops t a R) as I. pose proof (inv_n _ _ _ _ I) as Hn.
  unfold st_min_left_fx. rewrite Hn. fold n.
  split; [intros H; destruct (Nat.leb_spec r n); [lia|reflexivity]|].
  split; [intros H E; destruct (Nat.leb_spec r n); [|lia]; cbn [rassert mbind res_bind]; rewrite E; reflexivity|].
  split; [intros st1 H E; destruct (Nat.leb_spec r n); [|lia]; cbn [rassert mbind res_bind]; rewrite E; reflexivity|].
  intros st1 H E.
  destruct (Nat.leb_spec r n); [|lia]. cbn [rassert mbind res_bind]. rewrite E. cbn [rassert mbind res_bind].
  destruct (Nat.eqb_spec r 0) as [->|Hr].
  - exists (Ok (st1, 0)). split; [apply (bi_done _ _ st1 0)|reflexivity].
  - destruct (min_left_bisect e op L t a I f r st1 ltac:(lia) ltac:(lia)) as (o & B & Eq).
    rewrite Hlog in B. exists o. split; [exact B|]. rewrite Eq.
    destruct o as [[]| |]; reflexivity.
Qed.
Print Assumptions C77_min_left.

(** ** The code is that of the pure models *)
Definition pure {σ S} (f : S -> bool) (st : σ) (x : S) : res (σ * bool) := Ok (st, f x).

Lemma fw_pure {T σ} zero add (t : fenwick T) f (st : σ) :
  snd <$> fw_partition_point_fx zero add t (pure f) st = fw_partition_point zero add t f.
Proof.
  unfold fw_partition_point_fx, fw_partition_point. destruct (lg _) as [top| |]; cbn [mbind res_bind]; try reflexivity.
  match goal with |- _ <$> (rfor ?l ?b ?s ≫= _) = (rfor _ ?b' _ ≫= _) =>
    assert (rfor l b' (fst s) = fst <$> rfor l b s) as E end.
  { apply (rfor_erase fst). intros i [[pos sum] st']. cbn [fst]. destruct (_ <=? _); [|reflexivity].
    destruct (vget _ _) as [x| |]; [|reflexivity|reflexivity]. cbn. destruct (f _); reflexivity. }
  cbn [fst] in E. rewrite E. match goal with |- _ <$> (?r ≫= _) = _ => destruct r as [[[pos sum] st']| |]; reflexivity end.
Qed.

Lemma st_right_pure {S σ} (e : S) op t l f (st : σ) :
  snd <$> st_max_right_fx e op t l (pure f) st = st_max_right e op t l f.
Proof.
  unfold st_max_right_fx, st_max_right. destruct (l <=? _); [|reflexivity]. cbn [rassert mbind res_bind pure].
  destruct (f e); [|reflexivity]. cbn [rassert mbind res_bind]. destruct (l =? _); [reflexivity|]. symmetry.
  apply (rloop_erase fst snd) with (s := (l + sg_size t, e, st)). intros [[l' sm] st']. cbn [fst].
  unfold st_max_right_step, st_max_right_step_fx. destruct (strip_even l') as [l1| |]; [|reflexivity|reflexivity]. cbn [mbind res_bind].
  destruct (vget _ l1) as [x| |]; [|reflexivity|reflexivity]. cbn [mbind res_bind pure]. destruct (f (op sm x)); cbn [negb].
  - destruct (negb _); reflexivity.
  - unfold st_descend_right, st_descend_right_fx.
    match goal with |- (rloop ?n ?b' ?s' ≫= _) ≫= _ = _ <$> ((rloop _ ?b ?s ≫= _) ≫= _) =>
      assert (rloop n b' (fst s) = snd <$> rloop n b s) as E end.
    { apply (rloop_erase fst snd). intros [[l2 sm2] st2]. cbn [fst]. destruct (l2 <? _); [|reflexivity].
      destruct (vget _ _) as [y| |]; [|reflexivity|reflexivity]. cbn. destruct (f _); reflexivity. }
    cbn [fst] in E. rewrite E.
    match goal with |- _ = _ <$> ((?r ≫= _) ≫= _) => destruct r as [[st2 l2]| |]; [|reflexivity|reflexivity] end. cbn.
    destruct (nsub _ _); reflexivity.
Qed.

Lemma st_left_pure {S σ} (e : S) op t r f (st : σ) :
  snd <$> st_min_left_fx e op t r (pure f) st = st_min_left e op t r f.
Proof.
  unfold st_min_left_fx, st_min_left. destruct (r <=? _); [|reflexivity]. cbn [rassert mbind res_bind pure].
  destruct (f e); [|reflexivity]. cbn [rassert mbind res_bind]. destruct (r =? _); [reflexivity|]. symmetry.
  apply (rloop_erase fst snd) with (s := (r + sg_size t, e, st)). intros [[r' sm] st']. cbn [fst].
  unfold st_min_left_step, st_min_left_step_fx. destruct (nsub r' 1) as [r2| |]; [|reflexivity|reflexivity]. cbn [mbind res_bind].
  destruct (strip_odd r2) as [l1| |]; [|reflexivity|reflexivity]. cbn [mbind res_bind].
  destruct (vget _ l1) as [x| |]; [|reflexivity|reflexivity]. cbn [mbind res_bind pure]. destruct (f (op x sm)); cbn [negb].
  - destruct (negb _); reflexivity.
  - unfold st_descend_left, st_descend_left_fx.
    match goal with |- (rloop ?n ?b' ?s' ≫= _) ≫= _ = _ <$> ((rloop _ ?b ?s ≫= _) ≫= _) =>
      assert (rloop n b' (fst s) = snd <$> rloop n b s) as E end.
    { apply (rloop_erase fst snd). intros [[l2 sm2] st2]. cbn [fst]. destruct (l2 <? _); [|reflexivity].
      destruct (vget _ _) as [y| |]; [|reflexivity|reflexivity]. cbn [mbind res_bind pure fmap res_fmap]. destruct (f _); [|reflexivity].
      destruct (nsub _ _); reflexivity. }
    cbn [fst] in E. rewrite E.
    match goal with |- _ = _ <$> ((?r ≫= _) ≫= _) => destruct r as [[st2 l2]| |]; [|reflexivity|reflexivity] end. cbn.
    destruct (nsub _ _); reflexivity.
Qed.

(** C77: with a predicate that has no effect these are the searches of C02, C03 and C07. *)
Theorem C77_same_code : forall {σ T : Type} (st : σ) (e : T) (op : T -> T -> T) (f : T -> bool),
  (forall t, snd <$> fw_partition_point_fx e op t (pure f) st = fw_partition_point e op t f) /\
  (forall t l, snd <$> st_max_right_fx e op t l (pure f) st = st_max_right e op t l f) /\
  (forall t r, snd <$> st_min_left_fx e op t r (pure f) st = st_min_left e op t r f).
Proof.
  intros. split; [|split]; intros; [apply fw_pure|apply st_right_pure|apply st_left_pure].
Qed.
Print Assumptions C77_same_code.

(** ** Number of calls *)
Definition counted {S} (f : S -> bool) (c : nat) (x : S) : res (nat * bool) := Ok (c + 1, f x).

(** C77: however many elements there are, a search asks its predicate O(log n) times. *)
Theorem C77_calls : forall {S : Type} (e : S) (op : S -> S -> S), monoid_laws e op ->
  forall v ops (t : segtree S) a, reached e op v ops t a ->
  forall (f : S -> bool) (i : nat), i <= length a -> f e = true ->
    (exists c r, st_max_right_fx e op t i (counted f) 0 = Ok (c, r) /\ c <= 2 * Nat.log2_up (length a) + 2) /\
    (exists c r, st_min_left_fx e op t i (counted f) 0 = Ok (c, r) /\ c <= 2 * Nat.log2_up (length a) + 2).
Proof.
  intros S e op L v ops t a R f i Hi Hf. split.
  - pose proof (C77_max_right e op L v ops t a R (counted f) 0 i) as (_ & _ & _ & H1 & H2).
    assert (counted f 0 e = Ok (1, true)) as E by (unfold counted; rewrite Hf; reflexivity).
    destruct (decide (i = length a)) as [->|Hne].
    + specialize (H1 1 eq_refl E). rewrite H1. exists 1, (length a). split; [reflexivity|lia].
    + destruct (H2 1 ltac:(lia) E) as (o & B & ->).
      destruct (bisect_total _ _ _ _ _ _ (fun k st _ => ex_intro _ _ eq_refl) B) as (c & r & ->).
      eexists c, _. split; [reflexivity|]. apply bisect_count in B; [lia|].
      unfold counted. intros k s s' b Eq. injection Eq as <- <-. lia.
  - pose proof (C77_min_left e op L v ops t a R (counted f) 0 i) as (_ & _ & _ & H2).
    assert (counted f 0 e = Ok (1, true)) as E by (unfold counted; rewrite Hf; reflexivity).
    destruct (H2 1 Hi E) as (o & B & ->).
    destruct (bisect_total _ _ _ _ _ _ (fun k st _ => ex_intro _ _ eq_refl) B) as (c & r & ->).
    eexists c, _. split; [reflexivity|]. apply bisect_count in B; [lia|].
    unfold counted. intros k s s' b Eq. injection Eq as <- <-. lia.
Qed.
Print Assumptions C77_calls.

(** ** Lazy segment tree *)
Section LazyShape.
  Context {S F : Type} (e : S) (op : S -> S -> S) (idm : F) (mapping : F -> S -> S) (comp : F -> F -> F).
  Local Notation same t t' := (lt_n t' = lt_n t /\ lt_size t' = lt_size t /\ lt_log t' = lt_log t).

  Ltac unb H := repeat match type of H with
    | (_ ≫= _) = Ok _ => let x := fresh "x" in let Hx := fresh "Hx" in apply rbind_ok_inv in H as (x & Hx & H); cbv beta zeta in H
    | (let '(_, _) := ?p in _) = Ok _ => destruct p
    | (if ?b then _ else _) = Ok _ => destruct b
    | Ok _ = Ok _ => injection H; clear H; intros; subst
    end.

  Lemma lt_step_shape t o t' x : lt_step e op idm mapping comp t o = Ok (t', x) -> same t t'.
  Proof.
    destruct o; cbn [lt_step]; intros H;
      unfold lt_set, lt_get, lt_prod, lt_all_prod, lt_apply, lt_apply_range, lt_max_right, lt_min_left in H; unb H; auto.
    all: repeat match goal with Hx : _ = Ok _ |- _ => progress unb Hx end; auto.
  Qed.

  Lemma lt_max_right_fx_shape {σ} t l (g : σ -> S -> σ * option bool) st t' st' x :
    lt_max_right_fx e op idm mapping comp t l g st = Ok (t', st', x) -> same t t'.
  Proof.
    unfold lt_max_right_fx. destruct (negb _); [intros H; unb H; auto|].
    destruct (g st e) as [st1 [[|]|]]; intros H; unb H; auto.
  Qed.
  Lemma lt_min_left_fx_shape {σ} t r (g : σ -> S -> σ * option bool) st t' st' x :
    lt_min_left_fx e op idm mapping comp t r g st = Ok (t', st', x) -> same t t'.
  Proof.
    unfold lt_min_left_fx. destruct (negb _); [intros H; unb H; auto|].
    destruct (g st e) as [st1 [[|]|]]; intros H; unb H; auto.
  Qed.

  Lemma lt_from_shape v t : lt_from e op idm v = Ok t -> (Z.of_nat (length v) < 2 ^ 32)%Z ->
    lt_log t = Nat.log2_up (length v).
  Proof.
    intros H Hv. unfold lt_from in H. rewrite Z.mod_small in H by lia. rewrite ceil_lg_spec in H by lia.
    cbn [mbind res_bind] in H. unb H. apply to_nat_log2_up.
  Qed.
End LazyShape.

Section LazyRun.
  Context {S F σ : Type} (e : S) (op : S -> S -> S) (idm : F) (mapping : F -> S -> S) (comp : F -> F -> F).
  Context (L : monoid_laws e op) (ML : map_laws op idm mapping comp).
  Local Notation LI := (LInv e op idm mapping).
  Implicit Types (t : lazytree S F) (a : list S).

  Definition LX t a : Prop := LI t a /\ lt_log t = Nat.log2_up (length a).

  Lemma search_right_ok t a l (g : σ -> S -> σ * option bool) st : LX t a ->
    exists t' st' r, lt_max_right_fx e op idm mapping comp t l g st = Ok (t', st', r) /\ LX t' a /\
      lx_search (F := F) e op a st (LxMaxRight l g) st' (found r).
  Proof.
    intros [I Hlog].
    assert (exists t' st' r, lt_max_right_fx e op idm mapping comp t l g st = Ok (t', st', r) /\ LI t' a /\
      lx_search (F := F) e op a st (LxMaxRight l g) st' (found r)) as (t' & st' & r & E & I' & H).
    2:{ exists t', st', r. split; [exact E|]. split; [|exact H]. split; [exact I'|].
        apply lt_max_right_fx_shape in E as (_ & _ & E). congruence. }
    pose proof (li_n _ _ _ _ _ _ I) as Hn. pose proof (li_size _ _ _ _ _ _ I) as Hsize.
    unfold lt_max_right_fx, lx_search. rewrite Hn.
    destruct (Nat.leb_spec l (length a)), (Nat.ltb_spec (length a) l); try lia; cbn [negb].
    2:{ exists t, st, None. auto. }
    destruct (g st e) as [st1 [[|]|]]; [|exists t, st1, None; auto..].
    destruct (Nat.eqb_spec l (length a)) as [->|Hne]; [exists t, st1, (Some (length a)); auto|].
    destruct (lt_max_right_bisect e op idm mapping comp L ML g t a I l st1 ltac:(lia)) as ([st2 r] & B & (t' & E & I')).
    exists t', st2, ((fun k => if k =? 2 ^ Nat.log2_up (length a) then length a else k) <$> r).
    rewrite Hsize, Hlog, Hn in *. cbn [fst snd] in E. split; [|split; [exact I'|]].
    - cbv zeta. rewrite <- E. destruct (lt_push_path _ _ _ _ _ _ _); reflexivity.
    - exists r. split; [exact B|reflexivity].
  Qed.

  Lemma search_left_ok t a r (g : σ -> S -> σ * option bool) st : LX t a ->
    exists t' st' l, lt_min_left_fx e op idm mapping comp t r g st = Ok (t', st', l) /\ LX t' a /\
      lx_search (F := F) e op a st (LxMinLeft r g) st' (found l).
  Proof.
    intros [I Hlog].
    assert (exists t' st' l, lt_min_left_fx e op idm mapping comp t r g st = Ok (t', st', l) /\ LI t' a /\
      lx_search (F := F) e op a st (LxMinLeft r g) st' (found l)) as (t' & st' & l & E & I' & H).
    2:{ exists t', st', l. split; [exact E|]. split; [|exact H]. split; [exact I'|].
        apply lt_min_left_fx_shape in E as (_ & _ & E). congruence. }
    pose proof (li_n _ _ _ _ _ _ I) as Hn. pose proof (li_size _ _ _ _ _ _ I) as Hsize.
    unfold lt_min_left_fx, lx_search. rewrite Hn.
    destruct (Nat.leb_spec r (length a)), (Nat.ltb_spec (length a) r); try lia; cbn [negb].
    2:{ exists t, st, None. auto. }
    destruct (g st e) as [st1 [[|]|]]; [|exists t, st1, None; auto..].
    destruct (Nat.eqb_spec r 0) as [->|Hne].
    { exists t, st1, (Some 0). split; [reflexivity|]. split; [exact I|]. exists (Some 0). split; [apply (bu_done _ _ st1 0)|reflexivity]. }
    destruct (lt_min_left_bisect e op idm mapping comp L ML g t a I r st1 ltac:(lia) ltac:(lia)) as ([st2 j] & B & (t' & E & I')).
    exists t', st2, ((fun j => r - j) <$> j).
    rewrite nsub_ok by lia. cbn [mbind res_bind]. cbn [fst snd] in E. split; [|split; [exact I'|]].
    - cbv zeta. rewrite <- E. destruct (lt_push_path _ _ _ _ _ _ _); reflexivity.
    - exists j. rewrite Hlog in B. split; [exact B|reflexivity].
  Qed.

  Lemma lx_run_allowed (ops : list (lx_op S F σ)) : forall t a st, LX t a ->
    lx_allowed_run e op mapping a st ops (fmap snd (run (lx_step e op idm mapping comp) (t, st) ops)).
  Proof.
    induction ops as [|o ops IH]; intros t a st I; cbn [run].
    - constructor.
    - destruct o as [o|l g|r g]; cbn [lx_step].
      + destruct I as [I Hlog]. pose proof (step_allowed e op idm mapping comp L ML t a I o) as H.
        destruct (lt_step e op idm mapping comp t o) as [[t' out]| |] eqn:E; cbn [mbind res_bind]; [|constructor; exact H|contradiction].
        destruct H as (a' & H & I').
        assert (LX t' a') as IX.
        { split; [exact I'|]. apply lt_step_shape in E as (E1 & _ & E2).
          rewrite E2, Hlog. f_equal. rewrite <- (li_n _ _ _ _ _ _ I), <- (li_n _ _ _ _ _ _ I'). congruence. }
        specialize (IH t' a' st IX).
        replace (snd <$> _) with (cons (LxOut out) <$> (snd <$> run (lx_step e op idm mapping comp) (t', st) ops))
          by (destruct (run _ _ _) as [[]| |]; reflexivity).
        eapply lxr_call; eassumption.
      + destruct (search_right_ok t a l g st I) as (t' & st' & r & -> & I' & H). cbn [mbind res_bind].
        replace (snd <$> _) with (cons (found r) <$> (snd <$> run (lx_step e op idm mapping comp) (t', st') ops))
          by (destruct (run _ _ _) as [[]| |]; reflexivity).
        eapply lxr_search; [exact H|]. apply IH. exact I'.
      + destruct (search_left_ok t a r g st I) as (t' & st' & l & -> & I' & H). cbn [mbind res_bind].
        replace (snd <$> _) with (cons (found (S := S) l) <$> (snd <$> run (lx_step e op idm mapping comp) (t', st') ops))
          by (destruct (run _ _ _) as [[]| |]; reflexivity).
        eapply lxr_search; [exact H|]. apply IH. exact I'.
  Qed.
End LazyRun.

(** C77: any history on a lazy tree in which the closures passed to the searches keep a state and may panic, the
    panic being caught: every search is a binary search of the plain array, asking at most 2 log2 n + 2 questions
    (log2 rounded up), and whatever the closure does the tree stays as good as before. *)
Theorem C77_lazy_unwind : forall {S F σ : Type} (e : S) (op : S -> S -> S)
    (idm : F) (mapping : F -> S -> S) (comp : F -> F -> F),
  monoid_laws e op -> map_laws op idm mapping comp ->
  forall (v : list S) (st : σ) (ops : list (lx_op S F σ)), (Z.of_nat (length v) < 2 ^ 32)%Z ->
    lx_allowed_run e op mapping v st ops
      (fmap snd (t ← lt_from e op idm v; run (lx_step e op idm mapping comp) (t, st) ops)).
Proof.
  intros S F σ e op idm mapping comp L ML v st ops Hv.
  destruct (from_inv e op idm mapping comp L ML v Hv) as (t & E & I). rewrite E. cbn [mbind res_bind].
  apply (lx_run_allowed e op idm mapping comp L ML). split; [exact I|]. apply lt_from_shape in E; assumption.
Qed.
Print Assumptions C77_lazy_unwind.

Definition pure_u {σ S} (f : S -> bool) (st : σ) (x : S) : σ * option bool := (st, Some (f x)).

(** A search that may unwind against one whose assertions are [Panic]. *)
Definition caught {X σ} (r : res (X * σ * option nat)) : res (X * nat) :=
  '(x, _, k) ← r; match k with Some k => Ok (x, k) | None => Panic end.

Section LazyPure.
  Context {S F σ : Type} (e : S) (op : S -> S -> S) (idm : F) (mapping : F -> S -> S) (comp : F -> F -> F).

  Lemma rloop_caught {X Y} (st : X * σ -> res (X * σ + Y * σ * option nat)) (st' : X -> res (X + Y * nat)) :
    (forall x s, match st (x, s) with
       | Ok (inl (x', _)) => st' x = Ok (inl x')
       | Ok (inr (y, _, Some k)) => st' x = Ok (inr (y, k))
       | Ok (inr (_, _, None)) => False
       | Panic => st' x = Panic | Diverge => st' x = Diverge end) ->
    forall fuel x s, match rloop fuel st (x, s) with
       | Ok (y, _, Some k) => rloop fuel st' x = Ok (y, k)
       | Ok (_, _, None) => False
       | Panic => rloop fuel st' x = Panic | Diverge => rloop fuel st' x = Diverge end.
  Proof.
    intros H fuel. induction fuel as [|fuel IH]; intros x s; [reflexivity|]. cbn [rloop]. specialize (H x s).
    destruct (st (x, s)) as [[[x' s']|[[y s'] [k|]]]| |]; cbn [mbind res_bind]; try rewrite H; try reflexivity; [|contradiction].
    apply IH.
  Qed.

  Ltac by_loop f := match goal with |- context [rloop ?n ?b (?x, ?s)] =>
    match goal with |- context [rloop n ?b' x] =>
      let H := fresh "H" in assert (H : match rloop n b (x, s) with
       | Ok (y, _, Some k) => rloop n b' x = Ok (y, k)
       | Ok (_, _, None) => False
       | Panic => rloop n b' x = Panic | Diverge => rloop n b' x = Diverge end);
      [|destruct (rloop n b (x, s)) as [[[? ?] [?|]]| |]; [rewrite H|contradiction|rewrite H..]; clear H]
    end end.

  Lemma lt_right_pure (t : lazytree S F) l f (st : σ) :
    caught (lt_max_right_fx e op idm mapping comp t l (pure_u f) st) = lt_max_right e op idm mapping comp t l f.
  Proof.
    unfold lt_max_right_fx, lt_max_right. destruct (l <=? _); [|reflexivity]. cbn [negb rassert mbind res_bind pure_u].
    destruct (f e); [|reflexivity]. cbn [rassert mbind res_bind]. destruct (l =? _); [reflexivity|].
    destruct (lt_push_path _ _ _ _ _ _ _) as [s| |]; cbn [mbind res_bind]; try reflexivity.
    by_loop f; [|reflexivity..].
    apply (rloop_caught (X := tree S F * nat * S) (Y := tree S F)). clear. intros [[s l] sm] st.
    unfold lt_max_right_step_fx, lt_max_right_step. destruct (strip_even l) as [l1| |]; cbn [mbind res_bind]; try reflexivity.
    destruct (vget _ _) as [x| |]; cbn [mbind res_bind pure_u]; try reflexivity. destruct (f (op sm x)); cbn [negb].
    - destruct (lowbit _ =? _); reflexivity.
    - unfold lt_descend_right_fx, lt_descend_right.
      by_loop f; cbn [mbind res_bind]; [|destruct (nsub _ _); reflexivity|reflexivity..].
      apply (rloop_caught (X := tree S F * nat * S) (Y := tree S F)). clear. intros [[s l] sm] st.
      destruct (l <? _); [|reflexivity]. destruct (lt_push _ _ _ _ _ _) as [s1| |]; cbn [mbind res_bind]; try reflexivity.
      destruct (vget _ _) as [x| |]; cbn [mbind res_bind pure_u]; try reflexivity. destruct (f _); reflexivity.
  Qed.

  Lemma lt_left_pure (t : lazytree S F) r f (st : σ) :
    caught (lt_min_left_fx e op idm mapping comp t r (pure_u f) st) = lt_min_left e op idm mapping comp t r f.
  Proof.
    unfold lt_min_left_fx, lt_min_left. destruct (r <=? _); [|reflexivity]. cbn [negb rassert mbind res_bind pure_u].
    destruct (f e); [|reflexivity]. cbn [rassert mbind res_bind]. destruct (r =? _); [reflexivity|].
    destruct (nsub _ _) as [q| |]; cbn [mbind res_bind]; try reflexivity.
    destruct (lt_push_path _ _ _ _ _ _ _) as [s| |]; cbn [mbind res_bind]; try reflexivity.
    by_loop f; [|reflexivity..].
    apply (rloop_caught (X := tree S F * nat * S) (Y := tree S F)). clear. intros [[s r] sm] st.
    unfold lt_min_left_step_fx, lt_min_left_step. destruct (nsub r 1) as [r1| |]; cbn [mbind res_bind]; try reflexivity.
    destruct (strip_odd r1) as [l1| |]; cbn [mbind res_bind]; try reflexivity.
    destruct (vget _ _) as [x| |]; cbn [mbind res_bind pure_u]; try reflexivity. destruct (f (op x sm)); cbn [negb].
    - destruct (lowbit _ =? _); reflexivity.
    - unfold lt_descend_left_fx, lt_descend_left.
      by_loop f; cbn [mbind res_bind]; [|destruct (nsub _ _); reflexivity|reflexivity..].
      apply (rloop_caught (X := tree S F * nat * S) (Y := tree S F)). clear. intros [[s r] sm] st.
      destruct (r <? _); [|reflexivity]. destruct (lt_push _ _ _ _ _ _) as [s1| |]; cbn [mbind res_bind]; try reflexivity.
      destruct (vget _ _) as [x| |]; cbn [mbind res_bind pure_u]; try reflexivity. destruct (f _); [|reflexivity].
      destruct (nsub _ _); reflexivity.
  Qed.
End LazyPure.

(** C77: with a predicate that has no effect these are the searches of C05. *)
Theorem C77_lazy_same_code : forall {S F σ : Type} (e : S) (op : S -> S -> S) (idm : F) (mapping : F -> S -> S)
    (comp : F -> F -> F) (t : lazytree S F) (i : nat) (f : S -> bool) (st : σ),
  caught (lt_max_right_fx e op idm mapping comp t i (pure_u f) st) = lt_max_right e op idm mapping comp t i f /\
  caught (lt_min_left_fx e op idm mapping comp t i (pure_u f) st) = lt_min_left e op idm mapping comp t i f.
Proof. intros. split; [apply lt_right_pure|apply lt_left_pure]. Qed.
Print Assumptions C77_lazy_same_code.

(** ** Concrete cases *)

(** A predicate that writes down what it is asked, on sums. *)
Definition noted (bound : Z) (log : list Z) (x : Z) : res (list Z * bool) := Ok (log ++ [x], (x <=? bound)%Z).
(** One that panics at its third call. *)
Definition third (c : nat) (x : Z) : res (nat * bool) := if c =? 2 then Panic else Ok (c + 1, true).
(** One that says yes to the identity the first time only and then alternates, whatever it is asked. *)
Definition fickle (answers : list bool) (x : Z) : res (list bool * bool) :=
  match answers with b :: bs => Ok (bs, b) | [] => Ok ([], false) end.

Example C77_nonvacuous :
  (t ← fw_from 0%Z Z.add [3; 1; 4; 1; 5]%Z; fw_partition_point_fx 0%Z Z.add t (noted 8) []) = Ok ([9; 4; 8]%Z, 3) /\
  (t ← fw_from 0%Z Z.add [3; 1; 4; 1; 5]%Z; fw_partition_point_fx 0%Z Z.add t third 0) = Ok (2, 5) /\
  (t ← fw_from 0%Z Z.add [3; 1; 4; 1; 5; 9; 2]%Z; fw_partition_point_fx 0%Z Z.add t third 0) = Panic /\
  (t ← st_from 0%Z Z.add [3; 1; 4; 1; 5]%Z; st_max_right_fx 0%Z Z.add t 1 (noted 9) []) = Ok ([0; 1; 6; 11; 11; 11]%Z, 4) /\
  (t ← st_from 0%Z Z.add [3; 1; 4; 1; 5]%Z; st_min_left_fx 0%Z Z.add t 4 (noted 5) []) = Ok ([0; 9; 5; 6]%Z, 2) /\
  (t ← st_from 0%Z Z.add [3; 1; 4; 1; 5]%Z; st_max_right_fx 0%Z Z.add t 0 third 0) = Ok (2, 5) /\
  (t ← st_from 0%Z Z.add [3; 1; 4; 1; 5]%Z; st_max_right_fx 0%Z Z.add t 1 third 0) = Panic /\
  (t ← st_from 0%Z Z.add [3; 1; 4; 1; 5]%Z;
   st_max_right_fx 0%Z Z.add t 0 fickle [true; false; true; true; false]) = Ok ([], 6).
Proof. vm_compute. auto 10. Qed.

(** In the last case the answers contradict each other (no to the whole array, then yes to it) and the index returned
    is beyond the end of the array: max_right does not promise r <= n for such a predicate. *)
Theorem C77_beyond_end : exists (v : list Z) t (f : list bool -> Z -> res (list bool * bool)) st st' r,
  st_from 0%Z Z.add v = Ok t /\ st_max_right_fx 0%Z Z.add t 0 f st = Ok (st', r) /\ length v < r.
Proof.
  exists [3; 1; 4; 1; 5]%Z. eexists _, fickle, [true; false; true; true; false], [], 6.
  split; [vm_compute; reflexivity|]. split; [vm_compute; reflexivity|]. cbn. lia.
Qed.
Print Assumptions C77_beyond_end.

(** Multiplying ranges of a lazy tree of sums, with a closure that counts and unwinds at its fourth call. *)
Definition lx_count (c : nat) (x : Z) : nat * option bool := (c + 1, if c =? 3 then None else Some (x <=? 12)%Z).
Example C77_lazy_nonvacuous :
  monoid_laws 0%Z Z.add /\ map_laws Z.add 1%Z Z.mul Z.mul /\
  snd <$> (t ← lt_from 0%Z Z.add 1%Z [3; 1; 4; 1; 5]%Z;
    run (lx_step 0%Z Z.add 1%Z Z.mul Z.mul) (t, 0)
      [LxCall (LzApplyRange 1 4 2%Z); LxMaxRight 1 lx_count; LxMaxRight 1 lx_count; LxCall (LzProd 0 5);
       LxMinLeft 5 lx_count; LxCall (LzApplyRange 0 5 10%Z); LxMinLeft 5 lx_count; LxCall (LzProd 1 5); LxMaxRight 9 lx_count])
  = Ok [LxOut LzUnit; LxUnwound; LxFound 4; LxOut (LzVal 20%Z); LxFound 3; LxOut LzUnit; LxFound 5; LxOut (LzVal 170%Z); LxUnwound].
Proof. split; [split; intros; lia|]. split; [split; intros; lia|]. vm_compute. reflexivity. Qed.
