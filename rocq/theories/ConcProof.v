(** Lemmas on threads sharing a Barrett. *)
From Verif Require Import Prelude IntModel IMathModel ModIntModel ConcModel.
Open Scope Z_scope.

(** A thread alone: its value and the memory it leaves, the number of its accesses. *)
Fixpoint aeval {A} (br : barrett) (a : acts A) : barrett * res A :=
  match a with
  | ARet r => (br, r)
  | ALoadM k => aeval br (k (br_m br))
  | ALoadIm k => aeval br (k (br_im br))
  | AStoreM v k => aeval (Barrett v (br_im br)) k
  | AStoreIm v k => aeval (Barrett (br_m br) v) k
  end.
Fixpoint asteps {A} (br : barrett) (a : acts A) : nat :=
  match a with
  | ARet _ => 0
  | ALoadM k => S (asteps br (k (br_m br)))
  | ALoadIm k => S (asteps br (k (br_im br)))
  | AStoreM v k => S (asteps (Barrett v (br_im br)) k)
  | AStoreIm v k => S (asteps (Barrett (br_m br) v) k)
  end.
(** No store is ever made. *)
Fixpoint quiet {A} (a : acts A) : Prop :=
  match a with
  | ARet _ => True
  | ALoadM k | ALoadIm k => forall v, quiet (k v)
  | AStoreM _ _ | AStoreIm _ _ => False
  end.

Lemma aeval_bind {A B} (a : acts A) (f : A -> acts B) br :
  aeval br (abind a f) = let '(br', r) := aeval br a in
    match r with Ok x => aeval br' (f x) | Panic => (br', Panic) | Diverge => (br', Diverge) end.
Proof. revert br. induction a as [[x| |]|k IH|k IH|v k IH|v k IH]; intros br; cbn [abind aeval]; auto. Qed.
Lemma quiet_bind {A B} (a : acts A) (f : A -> acts B) : quiet a -> (forall x, quiet (f x)) -> quiet (abind a f).
Proof. intros Ha Hf. induction a as [[x| |]|k IH|k IH|v k IH|v k IH]; cbn [abind quiet] in *; auto; contradiction. Qed.
Lemma quiet_mem {A} (a : acts A) br : quiet a -> fst (aeval br a) = br.
Proof. revert br. induction a as [r|k IH|k IH|v k IH|v k IH]; intros br Ha; cbn [aeval quiet] in *; auto; contradiction. Qed.

(** The fine model alone does what the model of C46 does. *)
Lemma c_pow_loop_seq br fuel : forall n x r, aeval br (c_pow_loop fuel n x r) = (br, rloop fuel (mi_pow_step (barrett_mul br)) (n, x, r)).
Proof.
  induction fuel as [|fuel IH]; intros n x r; [reflexivity|]. cbn [c_pow_loop rloop mi_pow_step].
  destruct (0 <? n); [|reflexivity]. rewrite aeval_bind.
  assert (aeval br (if Z.land n 1 =? 1 then c_mul r x else ARet (Ok r)) = (br, if Z.land n 1 =? 1 then barrett_mul br r x else Ok r)) as -> by (destruct (Z.land n 1 =? 1); reflexivity).
  cbn. destruct (if Z.land n 1 =? 1 then barrett_mul br r x else Ok r) as [r'| |]; cbn; [|reflexivity..].
  change (mul_mod x x (br_m br) (br_im br)) with (barrett_mul br x x). destruct (barrett_mul br x x) as [x'| |]; cbn [abind aeval]; [apply IH|reflexivity..].
Qed.
Local Arguments c_pow : simpl never.
Local Arguments mi_pow : simpl never.
Lemma c_eval_seq br env e : aeval br (c_eval env e) = (br, meval (dynamic_ctx br) env e).
Proof.
  induction e as [i|T v|v| |a IHa b IHb|a IHa b IHb|a IHa b IHb|a IHa|a IHa T v|a IHa T v|a IHa T v|a IHa n]; cbn [c_eval meval]; try reflexivity;
  rewrite ?aeval_bind, IHa; cbn; (destruct (meval (dynamic_ctx br) env a) as [x| |]; cbn; [|reflexivity..]); try reflexivity.
  1-3: rewrite aeval_bind, IHb; cbn; destruct (meval (dynamic_ctx br) env b) as [y| |]; reflexivity.
  1-3: unfold barrett_umod; destruct (mi_new (br_m br) T v); reflexivity.
  unfold c_pow, mi_pow. apply c_pow_loop_seq.
Qed.
Lemma c_inv_seq br a : aeval br (c_inv a) = (br, inv_non_prime (br_m br) a).
Proof. unfold c_inv, inv_non_prime. cbn. destruct (inv_gcd a (br_m br)) as [[g x]| |]; cbn; [|reflexivity..]. destruct (negb (g =? 1)); reflexivity. Qed.
Local Arguments c_inv : simpl never.
Local Arguments c_div : simpl never.
Local Arguments inv_non_prime : simpl never.
Local Arguments vget : simpl never.
Lemma c_op_seq br env o : aeval br (c_op env o) =
  match dstep (br, env) o with Ok (br', env', out) => (br', Ok (env', out)) | Panic => (br, Panic) | Diverge => (br, Diverge) end.
Proof.
  destruct o as [m| |e|i|i j]; cbn [c_op dstep].
  - unfold c_set, set_modulus. destruct (m =? 0); [reflexivity|]. cbn. destruct (barrett_new m) as [[m' im']| |]; reflexivity.
  - reflexivity.
  - rewrite aeval_bind, c_eval_seq. destruct (meval (dynamic_ctx br) env e); reflexivity.
  - rewrite aeval_bind. cbn. destruct (vget env i); cbn; [|reflexivity..]. rewrite aeval_bind, c_inv_seq. unfold barrett_umod. destruct (inv_non_prime (br_m br) _); reflexivity.
  - rewrite aeval_bind. cbn. destruct (vget env i); cbn; [|reflexivity..]. destruct (vget env j); cbn; [|reflexivity..].
    rewrite aeval_bind. unfold c_div, mi_div. rewrite aeval_bind, c_inv_seq. cbn. unfold barrett_umod. destruct (inv_non_prime (br_m br) _); cbn; [|reflexivity..].
    change (mul_mod ?a ?b (br_m br) (br_im br)) with (barrett_mul br a b). destruct (barrett_mul br _ _); reflexivity.
Qed.
Lemma c_prog_seq ops : forall br env, snd (aeval br (c_prog env ops)) = drun (br, env) ops.
Proof.
  induction ops as [|o ops IH]; intros br env; [reflexivity|]. cbn [c_prog drun]. rewrite aeval_bind, c_op_seq.
  destruct (dstep (br, env) o) as [[[br' env'] out]| |]; cbn [mbind res_bind snd]; [|reflexivity..].
  rewrite aeval_bind. specialize (IH br' env'). destruct (aeval br' (c_prog env' ops)) as [br'' r]. cbn [snd] in IH. subst r.
  destruct (drun (br', env') ops); reflexivity.
Qed.

Definition is_set (o : dop) : Prop := match o with DSet _ => True | _ => False end.
Lemma quiet_pow fuel : forall n x r, quiet (c_pow_loop fuel n x r).
Proof.
  induction fuel as [|fuel IH]; intros n x r; [exact I|]. cbn [c_pow_loop]. destruct (0 <? n); [|exact I].
  apply quiet_bind; [destruct (Z.land n 1 =? 1); cbn; auto|]. intros r'. apply quiet_bind; [cbn; auto|]. intros x'. apply IH.
Qed.
Lemma quiet_eval env e : quiet (c_eval env e).
Proof.
  induction e; cbn [c_eval]; try exact I; try (intros ?; exact I);
    repeat (apply quiet_bind; [first [assumption|intros ?; exact I]|intros ?]); try (intros ?; exact I); [cbn; auto..|apply quiet_pow].
Qed.
Lemma quiet_inv a : quiet (c_inv a).
Proof. intros m. apply quiet_bind; [exact I|]. intros [g x]. destruct (negb (g =? 1)); [exact I|intros ?; exact I]. Qed.
Lemma quiet_op env o : ~ is_set o -> quiet (c_op env o).
Proof.
  intros Ho. destruct o as [m| |e|i|i j]; cbn [c_op].
  - contradiction Ho. exact I.
  - intros v. exact I.
  - apply quiet_bind; [apply quiet_eval|]. intros v. exact I.
  - apply quiet_bind; [exact I|]. intros x. apply quiet_bind; [apply quiet_inv|]. intros v. exact I.
  - apply quiet_bind; [exact I|]. intros x. apply quiet_bind; [exact I|]. intros y. apply quiet_bind; [|intros v; exact I].
    apply quiet_bind; [apply quiet_inv|]. intros v. cbn. auto.
Qed.
Lemma quiet_prog ops : forall env, Forall (fun o => ~ is_set o) ops -> quiet (c_prog env ops).
Proof.
  induction ops as [|o ops IH]; intros env H; [exact I|]. apply Forall_cons_1 in H as [Ho H]. cbn [c_prog].
  apply quiet_bind; [apply quiet_op, Ho|]. intros [env' out]. apply quiet_bind; [apply IH, H|]. intros outs. exact I.
Qed.

(** The machine. *)
Definition turns (i : nat) (sched : list nat) : nat := length (filter (fun j => j = i) sched).
Lemma mrun_length {A} sched : forall (s : barrett * list (acts A)), length (snd (mrun s sched)) = length (snd s).
Proof.
  induction sched as [|i sched IH]; intros [br ths]; [reflexivity|]. unfold mrun in *. cbn [foldl]. rewrite IH. cbn [mstep].
  destruct (ths !! i) as [a|]; [|reflexivity]. destruct (tstep br a). cbn. apply insert_length.
Qed.
Lemma tstep_eval {A} br (a : acts A) : let '(br', a') := tstep br a in aeval br' a' = aeval br a /\ asteps br' a' = pred (asteps br a).
Proof. destruct a; cbn; auto. Qed.
Lemma steps_ret {A} br (a : acts A) : asteps br a = 0%nat -> a = ARet (snd (aeval br a)).
Proof. destruct a; cbn; [reflexivity|discriminate..]. Qed.
Lemma tstep_quiet {A} br (a : acts A) : quiet a -> fst (tstep br a) = br /\ quiet (snd (tstep br a)).
Proof. destruct a; cbn; intros H; auto; contradiction. Qed.

Lemma mrun_quiet {A} sched : forall br (ths : list (acts A)), Forall quiet ths ->
  exists ths', mrun (br, ths) sched = (br, ths') /\
  forall i a, ths !! i = Some a -> exists a', ths' !! i = Some a' /\ aeval br a' = aeval br a /\ asteps br a' = (asteps br a - turns i sched)%nat.
Proof.
  induction sched as [|j sched IH]; intros br ths Hq.
  { exists ths. split; [reflexivity|]. intros i a Hi. exists a. repeat split; auto. unfold turns. cbn. lia. }
  unfold mrun in *. cbn [foldl mstep]. destruct (ths !! j) as [b|] eqn:Ej.
  - pose proof (tstep_eval br b) as Hs. pose proof (proj1 (Forall_lookup _ _) Hq j b Ej) as Hb. apply (tstep_quiet br) in Hb as [Hm Hb].
    destruct (tstep br b) as [br' b']. cbn [fst snd] in *. subst br'. destruct Hs as [Hs1 Hs2].
    destruct (IH br (<[j:=b']> ths)) as (ths' & E & H).
    { apply Forall_insert; assumption. }
    exists ths'. split; [exact E|]. intros i a Hi. destruct (decide (j = i)) as [->|Hij].
    + assert (a = b) as -> by congruence. destruct (H i b') as (a' & H1 & H2 & H3).
      { apply list_lookup_insert. apply lookup_lt_Some in Ej. exact Ej. }
      exists a'. split; [exact H1|]. split; [congruence|]. unfold turns in *. rewrite filter_cons_True by reflexivity. cbn [length]. lia.
    + destruct (H i a) as (a' & H1 & H2 & H3); [rewrite list_lookup_insert_ne; assumption|].
      exists a'. split; [exact H1|]. split; [exact H2|]. unfold turns in *. rewrite filter_cons_False by exact Hij. exact H3.
  - destruct (IH br ths Hq) as (ths' & E & H). exists ths'. split; [exact E|]. intros i a Hi. destruct (H i a Hi) as (a' & H1 & H2 & H3).
    exists a'. split; [exact H1|]. split; [exact H2|]. unfold turns in *. rewrite filter_cons_False; [exact H3|]. congruence.
Qed.

(** No access of this run is a store. *)
Definition storing {A} (a : acts A) : Prop := match a with AStoreM _ _ | AStoreIm _ _ => True | _ => False end.
Fixpoint no_store {A} (s : barrett * list (acts A)) (sched : list nat) : Prop :=
  match sched with
  | [] => True
  | i :: sched => match snd s !! i with Some a => ~ storing a | None => True end /\ no_store (mstep s i) sched
  end.

(** A thread that begins with [a] goes through [a] as if alone, as long as nobody stores. *)
Lemma mrun_undisturbed {A B} sched : forall br (ths : list (acts B)) i (a : acts A) k,
  ths !! i = Some (abind a k) -> no_store (br, ths) sched -> turns i sched = asteps br a ->
  fst (mrun (br, ths) sched) = br /\
  snd (mrun (br, ths) sched) !! i = Some (match snd (aeval br a) with Ok x => k x | Panic => ARet Panic | Diverge => ARet Diverge end).
Proof.
  induction sched as [|j sched IH]; intros br ths i a k Hi Hn Ht.
  { unfold turns in Ht. cbn in Ht. destruct a as [[x| |]| | | |]; try discriminate; cbn in *; auto. }
  destruct Hn as [Hj Hn]. cbn [snd] in Hj. unfold mrun. cbn [foldl]. fold (mrun (mstep (br, ths) j) sched). cbn [mstep] in *.
  unfold turns in Ht. destruct (decide (j = i)) as [->|Hji].
  - rewrite filter_cons_True in Ht by reflexivity. cbn [length] in Ht. rewrite Hi in *.
    assert (Hlen : (i < length ths)%nat) by (apply lookup_lt_Some in Hi; exact Hi).
    destruct a as [r|kk|kk|v kk|v kk]; cbn [asteps] in Ht; [discriminate|injection Ht as Ht..].
    + cbn [abind tstep] in *. apply (IH br _ i (kk (br_m br)) k); [apply list_lookup_insert, Hlen|exact Hn|exact Ht].
    + cbn [abind tstep] in *. apply (IH br _ i (kk (br_im br)) k); [apply list_lookup_insert, Hlen|exact Hn|exact Ht].
    + contradiction Hj. exact I.
    + contradiction Hj. exact I.
  - rewrite filter_cons_False in Ht by exact Hji. destruct (ths !! j) as [b|] eqn:Eb; [|apply (IH br ths i a k); assumption].
    assert (fst (tstep br b) = br) as Hfst by (destruct b; cbn in *; try reflexivity; contradiction Hj; exact I).
    destruct (tstep br b) as [br' b'] eqn:Et. cbn [fst] in Hfst. subst br'. apply (IH br _ i a k); [rewrite list_lookup_insert_ne; assumption|exact Hn|exact Ht].
Qed.
Close Scope Z_scope.
