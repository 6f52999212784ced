(** Sections of a list with sum at most k: their number and the greatest length. *)
From Verif Require Import Prelude ArraySpec SpanSpec.
Definition light_section (k : nat) (v : list nat) (l r : nat) : Prop := l < r <= length v /\ sum_list (slice v l r) <= k.
#[global] Instance light_dec k v l r : Decision (light_section k v l r).
Proof. unfold light_section. apply _. Defined.
Definition light_count (k : nat) (v : list nat) : nat := sumn (length v) (fun l => sumn (S (length v)) (fun r => if decide (light_section k v l r) then 1 else 0)).
Definition light_longest (k : nat) (v : list nat) (m : nat) : Prop :=
  (forall l r, light_section k v l r -> r - l <= m) /\ (m = 0 \/ exists l r, light_section k v l r /\ r - l = m).
