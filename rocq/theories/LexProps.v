(** Numbering permutations with FenwickTree and Factorial (C150). *)
From Coq Require Import Znumtheory.
From Verif Require Import Prelude IntModel IMathSpec ModIntModel ModIntProof FactorialModel FactorialSpec FactorialProof ModIntProps CountSpec CountProof LexModel LexSpec LexProof.
Close Scope Z_scope.

(** pref and add(-1) on a tree of ones give for every place of a permutation the number of smaller entries after it; partition_point and add(-1)
    lead back; and every sequence of n numbers whose i-th is below n - i comes from exactly the permutation that partition_point finds. *)
Theorem C150_code : (forall n p, (Z.of_nat n < 2 ^ 64)%Z -> arrangement n n p -> perm_encode p = Ok (map Z.of_nat (lehmer p)) /\ perm_decode (lehmer p) = Ok p) /\
  (forall code, (Z.of_nat (length code) < 2 ^ 64)%Z -> (forall i c, code !! i = Some c -> c + i < length code) ->
     exists p, perm_decode code = Ok p /\ arrangement (length code) (length code) p /\ lehmer p = code).
Proof.
  split; [|apply decode_ok]. intros n p HZ A. split; [apply (encode_ok n); exact A|apply (decode_encode n); assumption].
Qed.
Print Assumptions C150_code.

(** Modulo a prime p > N, with either way of inverting, the sum of these numbers times the factorials perm(k, k) is the number of permutations that
    come before the given one in the dictionary. *)
Theorem C150_rank : forall p hint N f, prime p -> (p <= 2 ^ 31)%Z -> (Z.of_nat N < p)%Z -> factorial_new (static_ctx p hint) N = Ok f -> forall n q, n <= N + 1 -> arrangement n n q ->
  exists K v, counts (fun q' => arrangement n n q' /\ lex q' q) K /\ perm_rank (static_ctx p hint) f q = Ok v /\ mod_of (Z.of_nat K) p v.
Proof.
  intros p hint N f Hp H31 HN Ef n q Hn Hq. destruct (C41_factorial p hint N Hp H31 ltac:(lia)) as [F _]. destruct (F HN) as (f' & Ef' & A & B). assert (f' = f) as -> by congruence. pose proof (prime_ge_2 p Hp) as P2.
  assert (Pm : forall n k, k <= n <= N -> perm (static_ctx p hint) f n k = Ok (Z.of_nat (falling n k) mod p)%Z).
  { intros i k H. destruct (A i k H) as [_ (v & E & M)]. rewrite E. f_equal. apply mod_of_eq; [lia|exact M]. }
  destruct (rank_ok p hint N f Hp H31 HN Pm n q Hq Hn) as (K & C & E). exists K, (Z.of_nat K mod p)%Z. split; [exact C|]. split; [exact E|]. apply mod_of_mod. lia.
Qed.
Print Assumptions C150_rank.

Example C150_nonvacuous : let c := static_ctx 101 true in
  arrangement 4 4 [2; 0; 3; 1] /\ lehmer [2; 0; 3; 1] = [2; 0; 1; 0] /\ perm_encode [2; 0; 3; 1] = Ok [2; 0; 1; 0]%Z /\ perm_decode [2; 0; 1; 0] = Ok [2; 0; 3; 1] /\
  (f ← factorial_new c 12; perm_rank c f [2; 0; 3; 1]) = Ok 13%Z /\ (f ← factorial_new c 3; perm_rank c f [3; 2; 1; 0]) = Ok 23%Z /\ (f ← factorial_new c 3; perm_rank c f [4; 3; 2; 1; 0]) = Panic /\
  lex [2; 0; 1; 3] [2; 0; 3; 1] /\ ~ lex [2; 0; 3; 1] [2; 0; 3; 1].
Proof.
  cbv zeta. split; [|split; [reflexivity|]; do 5 (split; [vm_compute; reflexivity|]); cbn [lex]; split; lia].
  split; [reflexivity|]. split; [repeat constructor; rewrite ?elem_of_cons, ?elem_of_nil; lia|repeat constructor; lia].
Qed.
