(** BinaryLifting with all public fields filled by the client: what the tables have to say. *)
From Verif Require Import Prelude TreeSpec.

(** w is j edges above v, or the root if v is not that deep. *)
Definition above (g : list (list nat)) (root v j w : nat) : Prop :=
  w < length g /\ ancestor g root w v /\ (is_dist g v w j \/ w = root /\ exists d, is_dist g v root d /\ d <= j).
(** u is an ancestor of v exactly if tin[v] is in the interval of u. *)
Definition labels (g : list (list nat)) (root : nat) (tin tout : list nat) : Prop :=
  forall u v, u < length g -> v < length g -> exists tu tv ou, tin !! u = Some tu /\ tin !! v = Some tv /\ tout !! u = Some ou /\
    (tu <= tv < ou <-> ancestor g root u v).
(** Column i of pa holds jumps of length js[i], and the first length is 1. *)
Definition jumps (g : list (list nat)) (root : nat) (js : list nat) (pa : list (list nat)) : Prop :=
  js !! 0 = Some 1 /\ forall v i j, v < length g -> js !! i = Some j -> exists row w, pa !! v = Some row /\ row !! i = Some w /\ above g root v j w.
(** No length exceeds the sum of those before it by more than 1. *)
Definition complete (js : list nat) : Prop := forall i j, js !! i = Some j -> j <= S (sum_list (take i js)).
(** The way climbed by the lengths, in the given order, where each is used once if it is less than what is left of d. *)
Fixpoint climb (js : list nat) (d : nat) : nat :=
  match js with [] => 0 | j :: js => if j <? d then j + climb js (d - j) else climb js d end.
