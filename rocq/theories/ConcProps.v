(** Property C67: DynamicModInt used by several threads. *)
From Verif Require Import Prelude IntModel IMathModel IMathSpec IMathProof ModIntModel ModIntSpec ModIntProof ConcModel ConcProof.
Open Scope Z_scope.

Lemma mrun_alone {A} n : forall br (a : acts A), (asteps br a <= n)%nat -> mrun (br, [a]) (replicate n 0%nat) = (fst (aeval br a), [ARet (snd (aeval br a))]).
Proof.
  induction n as [|n IH]; intros br a Hn.
  - cbn. rewrite (steps_ret br a) at 1 by lia. destruct a; cbn in *; [reflexivity|lia..].
  - unfold mrun in *. cbn [replicate foldl mstep lookup list_lookup]. pose proof (tstep_eval br a) as H. destruct (tstep br a) as [br' a']. destruct H as [H1 H2].
    cbn. rewrite IH by lia. rewrite H1. reflexivity.
Qed.
Lemma aeval_mem_set ops : forall br env, Forall (fun o => ~ is_set o) ops -> fst (aeval br (c_prog env ops)) = br.
Proof. intros br env H. apply quiet_mem, quiet_prog, H. Qed.
Lemma aeval_last_set m post pre : Forall (fun o => ~ is_set o) post -> forall br env outs, drun (br, env) (pre ++ DSet m :: post) = Ok outs ->
  set_modulus m = Ok (fst (aeval br (c_prog env (pre ++ DSet m :: post)))).
Proof.
  intros Hp. induction pre as [|o pre IH]; intros br env outs.
  - cbn [app c_prog drun]. rewrite aeval_bind, c_op_seq. cbn [dstep]. destruct (set_modulus m) as [br'| |]; cbn [mbind res_bind]; [|discriminate..]. intros _.
    rewrite aeval_bind. pose proof (aeval_mem_set post br' env Hp) as Hm. destruct (aeval br' (c_prog env post)) as [br'' [r| |]]; cbn in *; congruence.
  - cbn [app c_prog drun]. rewrite aeval_bind, c_op_seq. destruct (dstep (br, env) o) as [[[br' env'] out]| |]; cbn [mbind res_bind]; [|discriminate..].
    intros E. apply rbind_ok_inv in E as (outs' & E & _). rewrite aeval_bind. specialize (IH br' env' outs' E).
    destruct (aeval br' (c_prog env' (pre ++ DSet m :: post))) as [br'' [r| |]]; cbn in *; exact IH.
Qed.

(** One thread alone, access by access, observes what C46 says; afterwards the Barrett is that of the last modulus set. *)
Theorem C67_alone : forall br env ops, exists N br', forall n, (N <= n)%nat ->
  mrun (br, [c_prog env ops]) (replicate n 0%nat) = (br', [ARet (drun (br, env) ops)]) /\
  (Forall (fun o => ~ is_set o) ops -> br' = br) /\
  (forall pre m post outs, ops = pre ++ DSet m :: post -> Forall (fun o => ~ is_set o) post -> drun (br, env) ops = Ok outs -> set_modulus m = Ok br').
Proof.
  intros br env ops. exists (asteps br (c_prog env ops)), (fst (aeval br (c_prog env ops))). intros n Hn. split; [|split].
  - rewrite mrun_alone by exact Hn. rewrite c_prog_seq. reflexivity.
  - apply aeval_mem_set.
  - intros pre m post outs -> Hp Hr. apply (aeval_last_set m post pre Hp br env outs Hr).
Qed.
Print Assumptions C67_alone.

(** C67: once the modulus is set, any number of threads may compute at the same time as long as none of them sets it: on
    every interleaving no thread ever ends with anything but the residues its own program denotes, and each of them ends
    as soon as it got a certain number of turns. *)
Theorem C67_threads : forall m br, 1 <= m <= 2 ^ 31 -> set_modulus m = Ok br ->
  forall (progs : list (list Z * list dop)) outs,
  Forall2 (fun '(env, ops) out => Forall (fun o => ~ is_set o) ops /\
     exists senv, length env = length senv /\ (forall j z, senv !! j = Some (Some z) -> exists v, env !! j = Some v /\ mod_of z m v) /\
     dspec_run (m, senv) ops out) progs outs ->
  exists need : nat -> nat, forall sched,
  exists ths, mrun (br, map (fun '(env, ops) => c_prog env ops) progs) sched = (br, ths) /\
  forall i out, outs !! i = Some out -> exists a, ths !! i = Some a /\
    (forall r, a = ARet r -> r = Ok out) /\
    ((need i <= turns i sched)%nat -> a = ARet (Ok out)).
Proof.
  intros m br Hm Hbr progs outs HF.
  exists (fun i => match progs !! i with Some (env, ops) => asteps br (c_prog env ops) | None => 0%nat end).
  intros sched. destruct (mrun_quiet sched br (map (fun '(env, ops) => c_prog env ops) progs)) as (ths & E & H).
  { apply Forall_lookup. intros i a Hi. rewrite list_lookup_fmap in Hi. destruct (progs !! i) as [[env ops]|] eqn:Ei; [|discriminate]. injection Hi as <-.
    destruct (Forall2_lookup_l _ _ _ _ _ HF Ei) as (out & _ & Hq & _). apply quiet_prog, Hq. }
  exists ths. split; [exact E|]. intros i out Ho. destruct (Forall2_lookup_r _ _ _ _ _ HF Ho) as ([env ops] & Hi & Hq & senv & Hlen & He & Hs).
  destruct (H i (c_prog env ops)) as (a & Ha & Hv & Hst). { rewrite list_lookup_fmap, Hi. reflexivity. }
  assert (Hval : snd (aeval br a) = Ok out).
  { rewrite Hv, c_prog_seq. apply (drun_ok m br env senv ops out); try assumption.
    { unfold set_modulus in Hbr. destruct (m =? 0) eqn:E0; [discriminate|exact Hbr]. }
    intros j z Hj. destruct (He j z Hj) as (v & Ev & Hmod). apply mod_of_eq in Hmod; [|lia]. congruence. }
  exists a. split; [exact Ha|]. split.
  - intros r ->. exact Hval.
  - rewrite Hi. intros Hn. rewrite <- Hval. apply steps_ret. lia.
Qed.
Print Assumptions C67_threads.

(** C67, with other threads that may set the modulus: an operation during which nobody stores (and which starts when
    no update is half done) does what it does alone with the modulus of that time, whatever the others do before and after. *)
Theorem C67_undisturbed : forall br env o, exists n, forall (ths : list (acts (list (option Z)))) i k sched,
  ths !! i = Some (abind (c_op env o) k) -> no_store (br, ths) sched -> turns i sched = n ->
  fst (mrun (br, ths) sched) = br /\
  snd (mrun (br, ths) sched) !! i = Some (match dstep (br, env) o with Ok (_, env', out) => k (env', out) | Panic => ARet Panic | Diverge => ARet Diverge end).
Proof.
  intros br env o. exists (asteps br (c_op env o)). intros ths i k sched Hi Hn Ht.
  destruct (mrun_undisturbed sched br ths i (c_op env o) k Hi Hn Ht) as [H1 H2]. split; [exact H1|]. rewrite H2. rewrite c_op_seq.
  destruct (dstep (br, env) o) as [[[br' env'] out]| |]; reflexivity.
Qed.
Print Assumptions C67_undisturbed.

(** Modulus 10; one thread computes 3^5 and 1/3, another 7 - 9, interleaved. *)
Example C67_nonvacuous : exists br, set_modulus 10 = Ok br /\
  snd (mrun (br, [c_prog [3] [DLet (MPow (MVar 0) 5); DInv 0]; c_prog [] [DLet (MSub (MNew i32 7) (MRaw 9)); DModulus]])
    (concat (replicate 14 [0; 1]%nat))) = [ARet (Ok [Some 3; Some 7]); ARet (Ok [Some 8; Some 10])].
Proof. eexists. split; [vm_compute; reflexivity|]. vm_compute. reflexivity. Qed.
(** The same thread disturbed by a set_modulus(7) between the two loads of a product: 2 * 3 gives 11. *)
Example C67_disturbed : exists br, set_modulus 7 = Ok br /\
  snd (mrun (br, [c_prog [2; 3] [DLet (MMul (MVar 0) (MVar 1))]; c_prog [] [DSet 5]]) [1; 0; 0; 1]%nat) = [ARet (Ok [Some 11]); ARet (Ok [None])].
Proof. eexists. split; [vm_compute; reflexivity|]. vm_compute. reflexivity. Qed.
Close Scope Z_scope.
