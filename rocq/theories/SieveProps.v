(** Inclusion and exclusion with the tables of Factorial (C149). *)
From Coq Require Import Znumtheory.
From Verif Require Import Prelude IntModel IMathSpec ModIntModel ModIntProof FactorialModel FactorialSpec FactorialProof ModIntProps CountSpec CountProof SieveModel SieveSpec SieveProof.
Close Scope Z_scope.

(** Modulo a prime p > N, with either way of inverting: the alternating sum of choose(k, j) (k - j)^n is the number of words of n letters that use
    each of k letters, the alternating sum of perm(n, n - j) the number of permutations of n numbers without a fixed point; the calls panic exactly
    when k, or n, is beyond the tables. *)
Theorem C149_sieve : forall p hint N f, prime p -> (p <= 2 ^ 31)%Z -> (Z.of_nat N < p)%Z -> factorial_new (static_ctx p hint) N = Ok f ->
  (forall n k, (Z.of_nat n < 2 ^ 64)%Z -> (k <= N -> exists K v, counts (onto n k) K /\ surjections (static_ctx p hint) f n k = Ok v /\ mod_of (Z.of_nat K) p v) /\
     (N < k -> surjections (static_ctx p hint) f n k = Panic)) /\
  (forall n, (n <= N -> exists K v, counts (deranged n) K /\ derangements (static_ctx p hint) f n = Ok v /\ mod_of (Z.of_nat K) p v) /\
     (N < n -> derangements (static_ctx p hint) f n = Panic)).
Proof.
  intros p hint N f Hp H31 HN Ef. destruct (C41_factorial p hint N Hp H31 ltac:(lia)) as [F _]. destruct (F HN) as (f' & Ef' & A & B). assert (f' = f) as -> by congruence. pose proof (prime_ge_2 p Hp) as P2.
  assert (Ch : forall n k, k <= n <= N -> choose (static_ctx p hint) f n k = Ok (Z.of_nat (binom n k) mod p)%Z).
  { intros n k H. destruct (A n k H) as [(v & E & M) _]. rewrite E. f_equal. apply mod_of_eq; [lia|exact M]. }
  assert (Pm : forall n k, k <= n <= N -> perm (static_ctx p hint) f n k = Ok (Z.of_nat (falling n k) mod p)%Z).
  { intros n k H. destruct (A n k H) as [_ (v & E & M)]. rewrite E. f_equal. apply mod_of_eq; [lia|exact M]. }
  assert (Out : forall n k, n < k \/ N < n -> choose (static_ctx p hint) f n k = Panic) by (intros n k H; apply B; exact H).
  assert (POut : forall n k, n < k \/ N < n -> perm (static_ctx p hint) f n k = Panic) by (intros n k H; apply B; exact H).
  assert (W : forall (P : nat -> Prop) (e : res Z), (exists K, P K /\ e = Ok (Z.of_nat K mod p)%Z) -> exists K v, P K /\ e = Ok v /\ mod_of (Z.of_nat K) p v).
  { intros P e (K & HK & E). exists K, (Z.of_nat K mod p)%Z. split; [exact HK|]. split; [exact E|]. apply mod_of_mod. lia. }
  split.
  - intros n k Hn. destruct (surjections_ok p hint N f Hp H31 HN Ch Out n k Hn) as [S1 S2]. split; [|exact S2]. intros H. apply W, S1, H.
  - intros n. destruct (derangements_ok p hint N f Hp H31 Pm POut n) as [S1 S2]. split; [|exact S2]. intros H. apply W, S1, H.
Qed.
Print Assumptions C149_sieve.

Example C149_nonvacuous : let c := static_ctx 101 true in
  (f ← factorial_new c 12; surjections c f 4 3) = Ok 36%Z /\ (f ← factorial_new c 12; surjections c f 2 3) = Ok 0%Z /\ (f ← factorial_new c 12; surjections c f 0 0) = Ok 1%Z /\
  (f ← factorial_new c 12; derangements c f 4) = Ok 9%Z /\ (f ← factorial_new c 12; derangements c f 5) = Ok 44%Z /\ (f ← factorial_new c 12; derangements c f 1) = Ok 0%Z /\
  (f ← factorial_new c 12; derangements c f 13) = Panic /\ (f ← factorial_new c 12; surjections c f 3 13) = Panic /\
  onto 4 3 [2; 0; 1; 0] /\ ~ onto 3 3 [2; 0; 0] /\ deranged 3 [1; 2; 0] /\ ~ deranged 3 [1; 0; 2].
Proof.
  cbv zeta. do 8 (split; [vm_compute; reflexivity|]). split; [|split; [|split]].
  - split; [reflexivity|]. split; [repeat constructor; lia|]. intros i Hi. rewrite !elem_of_cons. lia.
  - intros (_ & _ & H). specialize (H 1 ltac:(lia)). rewrite !elem_of_cons, elem_of_nil in H. lia.
  - split; [|intros [|[|[|i]]] E; cbn in E; try discriminate E; rewrite lookup_nil in E; discriminate E]. split; [reflexivity|]. split; [repeat constructor; rewrite ?elem_of_cons, ?elem_of_nil; lia|repeat constructor; lia].
  - intros [_ H]. apply (H 2). reflexivity.
Qed.
