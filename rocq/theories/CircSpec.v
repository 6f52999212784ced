(** Flows with lower bounds. *)
From Verif Require Import Prelude IntModel DinicSpec.
Open Scope Z_scope.

(** Edges (tail, head, (lower, upper)) on n vertices, with 0 <= lower <= upper of type T. *)
Definition bounds_ok (T : ity) (n : nat) (ds : list (nat * nat * (Z * Z))) : Prop :=
  Forall (fun d => (d.1.1 < n)%nat /\ (d.1.2 < n)%nat /\ 0 <= d.2.1 <= d.2.2 /\ d.2.2 <= it_max T) ds.
(** What leaves and what enters a vertex. *)
Fixpoint leaving (ds : list (nat * nat * (Z * Z))) (fs : list Z) (x : nat) : Z :=
  match ds, fs with d :: ds, f :: fs => (if (d.1.1 =? x)%nat then f else 0) + leaving ds fs x | _, _ => 0 end.
Fixpoint entering (ds : list (nat * nat * (Z * Z))) (fs : list Z) (x : nat) : Z :=
  match ds, fs with d :: ds, f :: fs => (if (d.1.2 =? x)%nat then f else 0) + entering ds fs x | _, _ => 0 end.
Definition within (ds : list (nat * nat * (Z * Z))) (fs : list Z) : Prop := Forall2 (fun d f => d.2.1 <= f <= d.2.2) ds fs.
Definition circulation (ds : list (nat * nat * (Z * Z))) (fs : list Z) : Prop := within ds fs /\ forall x, leaving ds fs x = entering ds fs x.
(** A flow of v from s to t. *)
Definition st_flow (ds : list (nat * nat * (Z * Z))) (s t : nat) (fs : list Z) (v : Z) : Prop :=
  within ds fs /\ forall x, leaving ds fs x - entering ds fs x = (if (s =? x)%nat then v else 0) - (if (t =? x)%nat then v else 0).
(** Upper bounds of the edges out of X, lower bounds of the edges into X. *)
Fixpoint upper_out (ds : list (nat * nat * (Z * Z))) (X : nat -> bool) : Z :=
  match ds with [] => 0 | d :: ds => (if X d.1.1 && negb (X d.1.2) then d.2.2 else 0) + upper_out ds X end.
Fixpoint lower_in (ds : list (nat * nat * (Z * Z))) (X : nat -> bool) : Z :=
  match ds with [] => 0 | d :: ds => (if negb (X d.1.1) && X d.1.2 then d.2.1 else 0) + lower_in ds X end.
Close Scope Z_scope.
