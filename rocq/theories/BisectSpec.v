(** Binary search by a question-asking procedure: the only thing assumed of the asker is the answers it gets. *)
From Verif Require Import Prelude.

(** [bisect ask c st lo hi o]: starting with the open bracket (lo, hi), at most [c] questions are asked, each at a
    point strictly between the current ends; the answer `true` moves the lower end there, `false` the upper end.
    Every question may change the state [st] of the answering closure.  The search ends with outcome
    [Ok (st', lo')] when the bracket is (lo', lo' + 1), or as soon as a question panics or does not return. *)
Inductive bisect {σ} (ask : nat -> σ -> res (σ * bool)) : nat -> σ -> nat -> nat -> res (σ * nat) -> Prop :=
  | bi_done c st lo : bisect ask c st lo (lo + 1) (Ok (st, lo))
  | bi_true c st st' lo k hi o : lo < k < hi -> ask k st = Ok (st', true) ->
      bisect ask c st' k hi o -> bisect ask (S c) st lo hi o
  | bi_false c st st' lo k hi o : lo < k < hi -> ask k st = Ok (st', false) ->
      bisect ask c st' lo k o -> bisect ask (S c) st lo hi o
  | bi_panic c st lo k hi : lo < k < hi -> ask k st = Panic -> bisect ask (S c) st lo hi Panic
  | bi_diverge c st lo k hi : lo < k < hi -> ask k st = Diverge -> bisect ask (S c) st lo hi Diverge.

(** What this gives: the answer lies in the bracket. *)
Lemma bisect_range {σ} (ask : nat -> σ -> res (σ * bool)) c st lo hi st' r :
  bisect ask c st lo hi (Ok (st', r)) -> lo <= r < hi.
Proof.
  remember (Ok (st', r)) as o eqn:E. intros B. revert E. induction B; intros E; try discriminate.
  - injection E as <- <-. lia.
  - specialize (IHB E). lia.
  - specialize (IHB E). lia.
Qed.

(** If the answers do not depend on the state, the search ends between a `true` and a `false`. *)
Lemma bisect_boundary {σ} (ask : nat -> σ -> res (σ * bool)) (p : nat -> bool) c st lo hi st' r :
  (forall k st st' b, ask k st = Ok (st', b) -> b = p k) ->
  bisect ask c st lo hi (Ok (st', r)) ->
  (r = lo \/ p r = true) /\ (r + 1 = hi \/ p (r + 1) = false).
Proof.
  intros Hp. remember (Ok (st', r)) as o eqn:E. intros B. revert E. induction B; intros E; try discriminate.
  - injection E as <- <-. auto.
  - specialize (IHB E). apply Hp in H0. destruct IHB as [[->|H1] H2]; split; auto.
  - specialize (IHB E). apply Hp in H0. destruct IHB as [H1 [->|H2]]; split; auto.
Qed.

(** If every question is answered, the search is. *)
Lemma bisect_total {σ} (ask : nat -> σ -> res (σ * bool)) c st lo hi o :
  (forall k st, lo < k < hi -> exists r, ask k st = Ok r) ->
  bisect ask c st lo hi o -> exists st' r, o = Ok (st', r).
Proof.
  intros Hp B. induction B; eauto.
  - apply IHB. intros. apply Hp. lia.
  - apply IHB. intros. apply Hp. lia.
  - destruct (Hp k st H) as [? ?]. congruence.
  - destruct (Hp k st H) as [? ?]. congruence.
Qed.

(** A closure that counts its calls has counted at most [c] of them. *)
Lemma bisect_count (ask : nat -> nat -> res (nat * bool)) c st lo hi st' r :
  (forall k st st' b, ask k st = Ok (st', b) -> st' = S st) ->
  bisect ask c st lo hi (Ok (st', r)) -> st' <= st + c.
Proof.
  intros Hp. remember (Ok (st', r)) as o eqn:E. intros B. revert E. induction B; intros E; try discriminate.
  - injection E as <- <-. lia.
  - specialize (IHB E). apply Hp in H0. lia.
  - specialize (IHB E). apply Hp in H0. lia.
Qed.

Lemma bisect_mono {σ} (ask : nat -> σ -> res (σ * bool)) c c' st lo hi o :
  c <= c' -> bisect ask c st lo hi o -> bisect ask c' st lo hi o.
Proof.
  intros Hc B. revert c' Hc. induction B; intros c' Hc; [constructor|..];
    (destruct c' as [|c']; [lia|]).
  - eapply bi_true; eauto. apply IHB. lia.
  - eapply bi_false; eauto. apply IHB. lia.
  - eapply bi_panic; eauto.
  - eapply bi_diverge; eauto.
Qed.

Lemma bisect_ext {σ} (ask ask' : nat -> σ -> res (σ * bool)) c st lo hi o :
  (forall k st, lo < k < hi -> ask k st = ask' k st) ->
  bisect ask c st lo hi o -> bisect ask' c st lo hi o.
Proof.
  intros He B. induction B; [constructor|..].
  - eapply bi_true; eauto; [rewrite <- He; eauto|]. apply IHB. intros. apply He. lia.
  - eapply bi_false; eauto; [rewrite <- He; eauto|]. apply IHB. intros. apply He. lia.
  - eapply bi_panic; eauto. rewrite <- He; auto.
  - eapply bi_diverge; eauto. rewrite <- He; auto.
Qed.

(** The same for a closure that always comes back, by returning ([Some]) or by unwinding ([None]); its state is
    kept in both cases.  The outcome is its final state and the end of the search, or [None] if it unwound. *)
Inductive bisect_u {σ} (ask : nat -> σ -> σ * option bool) : nat -> σ -> nat -> nat -> σ * option nat -> Prop :=
  | bu_done c st lo : bisect_u ask c st lo (lo + 1) (st, Some lo)
  | bu_true c st st' lo k hi o : lo < k < hi -> ask k st = (st', Some true) ->
      bisect_u ask c st' k hi o -> bisect_u ask (S c) st lo hi o
  | bu_false c st st' lo k hi o : lo < k < hi -> ask k st = (st', Some false) ->
      bisect_u ask c st' lo k o -> bisect_u ask (S c) st lo hi o
  | bu_unwind c st st' lo k hi : lo < k < hi -> ask k st = (st', None) -> bisect_u ask (S c) st lo hi (st', None).

Lemma bisect_u_range {σ} (ask : nat -> σ -> σ * option bool) c st lo hi st' r :
  bisect_u ask c st lo hi (st', Some r) -> lo <= r < hi.
Proof.
  remember (st', Some r) as o eqn:E. intros B. revert E. induction B; intros E; try discriminate.
  - injection E as <- <-. lia.
  - specialize (IHB E). lia.
  - specialize (IHB E). lia.
Qed.

Lemma bisect_u_mono {σ} (ask : nat -> σ -> σ * option bool) c c' st lo hi o :
  c <= c' -> bisect_u ask c st lo hi o -> bisect_u ask c' st lo hi o.
Proof.
  intros Hc B. revert c' Hc. induction B; intros c' Hc; [constructor|..];
    (destruct c' as [|c']; [lia|]).
  - eapply bu_true; eauto. apply IHB. lia.
  - eapply bu_false; eauto. apply IHB. lia.
  - eapply bu_unwind; eauto.
Qed.

Lemma bisect_u_ext {σ} (ask ask' : nat -> σ -> σ * option bool) c st lo hi o :
  (forall k st, lo < k < hi -> ask k st = ask' k st) ->
  bisect_u ask c st lo hi o -> bisect_u ask' c st lo hi o.
Proof.
  intros He B. induction B; [constructor|..].
  - eapply bu_true; eauto; [rewrite <- He; eauto|]. apply IHB. intros. apply He. lia.
  - eapply bu_false; eauto; [rewrite <- He; eauto|]. apply IHB. intros. apply He. lia.
  - eapply bu_unwind; eauto. rewrite <- He; auto.
Qed.
