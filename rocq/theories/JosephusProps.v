(** C154: the circle counting game with FenwickTree. *)
From Verif Require Import Prelude FenwickModel JosephusModel JosephusSpec JosephusProof.
Close Scope Z_scope.

(** The client does not panic and lists the people 0, ..., n - 1 in the order in which they leave the game, everybody once. *)
Theorem C154_order : forall n k, (Z.of_nat n < 2 ^ 64)%Z -> exists out, josephus n k = Ok out /\ leaves k (seq 0 n) out /\ out ≡ₚ seq 0 n.
Proof. intros n k HZ. destruct (josephus_ok n k HZ) as (o & E & L). exists o. split; [exact E|]. split; [exact L|exact (leaves_perm _ _ _ L)]. Qed.
Print Assumptions C154_order.

(** The rules of the game leave no other order. *)
Theorem C154_only : forall n k out o, (Z.of_nat n < 2 ^ 64)%Z -> josephus n k = Ok out -> leaves k (seq 0 n) o -> o = out.
Proof. intros n k out o HZ E H. destruct (josephus_ok n k HZ) as (o' & E' & L). rewrite E in E'. injection E' as <-. exact (leaves_unique _ _ _ _ H L). Qed.
Print Assumptions C154_only.

Example C154_nonvacuous : (Z.of_nat 7 < 2 ^ 64)%Z /\ josephus 7 2 = Ok [2; 5; 1; 6; 4; 0; 3] /\ josephus 3 10 = Ok [1; 2; 0] /\ josephus 0 4 = Ok [].
Proof. split; [lia|]. split_and!; vm_compute; reflexivity. Qed.
