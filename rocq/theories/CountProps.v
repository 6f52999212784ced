(** Counting with the tables of Factorial (C148). *)
From Coq Require Import Znumtheory.
From Verif Require Import Prelude IntModel IMathSpec ModIntModel ModIntProof FactorialModel FactorialSpec FactorialProof ModIntProps CountModel CountSpec CountProof.
Close Scope Z_scope.

(** Modulo a prime p > N, with either way of inverting: choose(n, k) is the number of 0/1-words of length n with k ones, perm(n, k) the number of
    ways to write down k different numbers below n. *)
Theorem C148_choose_perm : forall p hint N f, prime p -> (p <= 2 ^ 31)%Z -> (Z.of_nat N < p)%Z -> factorial_new (static_ctx p hint) N = Ok f -> forall n k, k <= n <= N ->
  (exists K v, counts (word n k) K /\ choose (static_ctx p hint) f n k = Ok v /\ mod_of (Z.of_nat K) p v) /\
  (exists K v, counts (arrangement n k) K /\ perm (static_ctx p hint) f n k = Ok v /\ mod_of (Z.of_nat K) p v).
Proof.
  intros p hint N f Hp H31 HN Ef n k H. destruct (C41_factorial p hint N Hp H31 ltac:(lia)) as [F _]. destruct (F HN) as (f' & Ef' & A & _). assert (f' = f) as -> by congruence. destruct (A n k H) as [(v & E & M) (v' & E' & M')].
  split; [exists (binom n k), v|exists (falling n k), v']; (split; [|auto]); [apply word_count|apply arrangement_count; lia].
Qed.
Print Assumptions C148_choose_perm.

(** choose(n + k - 1, k) is the number of ways to write k as an ordered sum of n numbers, choose(2n, n) / (n + 1) the number of balanced words of n
    pairs of brackets, the product of choose(k_0 + ... + k_i, k_i) the number of words with k_i letters i; each call panics exactly when the
    arguments leave the table (or n = 0 in the first). *)
Theorem C148_counting : forall p hint N f, prime p -> (p <= 2 ^ 31)%Z -> (Z.of_nat N < p)%Z -> factorial_new (static_ctx p hint) N = Ok f ->
  (forall n k, (1 <= n -> n + k <= N + 1 -> exists K v, counts (composition n k) K /\ stars (static_ctx p hint) f n k = Ok v /\ mod_of (Z.of_nat K) p v) /\
     (n = 0 \/ N + 1 < n + k -> stars (static_ctx p hint) f n k = Panic)) /\
  (forall n, (2 * n <= N -> exists K v, counts (bracketing n) K /\ catalan (static_ctx p hint) f n = Ok v /\ mod_of (Z.of_nat K) p v) /\
     (N < 2 * n -> catalan (static_ctx p hint) f n = Panic)) /\
  (forall ks, (sum_list ks <= N -> exists K v, counts (anagram ks) K /\ multinomial (static_ctx p hint) f ks = Ok v /\ mod_of (Z.of_nat K) p v) /\
     (N < sum_list ks -> multinomial (static_ctx p hint) f ks = Panic)).
Proof.
  intros p hint N f Hp H31 HN Ef. destruct (C41_factorial p hint N Hp H31 ltac:(lia)) as [F _]. destruct (F HN) as (f' & Ef' & A & B). assert (f' = f) as -> by congruence. pose proof (prime_ge_2 p Hp) as P2.
  assert (Ch : forall n k, k <= n <= N -> choose (static_ctx p hint) f n k = Ok (Z.of_nat (binom n k) mod p)%Z).
  { intros n k H. destruct (A n k H) as [(v & E & M) _]. rewrite E. f_equal. apply mod_of_eq; [lia|exact M]. }
  assert (Out : forall n k, n < k \/ N < n -> choose (static_ctx p hint) f n k = Panic) by (intros n k H; apply B; exact H).
  assert (W : forall (P : nat -> Prop) (e : res Z), (exists K, P K /\ e = Ok (Z.of_nat K mod p)%Z) -> exists K v, P K /\ e = Ok v /\ mod_of (Z.of_nat K) p v).
  { intros P e (K & HK & E). exists K, (Z.of_nat K mod p)%Z. split; [exact HK|]. split; [exact E|]. apply mod_of_mod. lia. }
  split; [|split].
  - intros n k. destruct (stars_ok p hint N f Ch Out n k) as [S1 S2]. split; [|exact S2]. intros H1 H2. apply W, S1; assumption.
  - intros n. destruct (catalan_ok p hint N f Hp H31 HN Ch Out n) as [S1 S2]. split; [|exact S2]. intros H. apply W, S1, H.
  - intros ks. destruct (multinomial_ok p hint N f Hp H31 Ch Out ks) as [S1 S2]. split; [|exact S2]. intros H. apply W, S1, H.
Qed.
Print Assumptions C148_counting.

Example C148_nonvacuous : let c := static_ctx 13 true in
  (f ← factorial_new c 12; stars c f 3 4) = Ok 2%Z /\ binom 6 4 = 15 /\ (f ← factorial_new c 12; catalan c f 4) = Ok 1%Z /\ 14 * 5 = binom 8 4 /\
  (f ← factorial_new c 12; multinomial c f [2; 1; 2]) = Ok 4%Z /\ (f ← factorial_new c 12; multinomial c f [7; 7]) = Panic /\
  (f ← factorial_new c 12; stars c f 0 0) = Panic /\ word 3 2 [true; false; true] /\ arrangement 4 2 [3; 1] /\ composition 3 4 [4; 0; 0] /\ bracketing 2 [true; false; true; false] /\ ~ bracketing 1 [false; true] /\
  anagram [2; 1] [0; 1; 0].
Proof.
  cbv zeta. do 7 (split; [vm_compute; reflexivity|]). split; [split; reflexivity|]. split; [split; [reflexivity|]; split; [repeat constructor; rewrite ?elem_of_cons, ?elem_of_nil; intuition congruence|repeat constructor; lia]|]. split; [split; reflexivity|]. split; [split; reflexivity|]. split; [intros [_ H]; exact H|].
  intros [|[|i]]; reflexivity.
Qed.
