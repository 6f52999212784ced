(** Modints whose representative is not below the modulus: made by raw, or left over from before a set_modulus.
    [mexpr] is only the program syntax; a variable stands for its representative. *)
From Verif Require Import Prelude IntModel ModIntModel.
Open Scope Z_scope.

(** Expressions whose value is made by an operation that reduces, or by a variable or raw value below the modulus. *)
Definition settled (m : Z) (env : list Z) (e : mexpr) : Prop :=
  match e with
  | MVar i => exists v, env !! i = Some v /\ v < m
  | MRaw v => v < m
  | _ => True
  end.

(** Variables and raw values are any u32; the operands of + and - are settled, those of * and pow need not be. *)
Fixpoint uvalid (m : Z) (env : list Z) (e : mexpr) : Prop :=
  match e with
  | MVar i => exists v, env !! i = Some v /\ 0 <= v < 2 ^ 32
  | MNew T v => T ∈ prim_types /\ in_ty T v
  | MRaw v => 0 <= v < 2 ^ 32
  | MDefault => True
  | MAdd a b | MSub a b => (uvalid m env a /\ settled m env a) /\ uvalid m env b /\ settled m env b
  | MMul a b => uvalid m env a /\ uvalid m env b
  | MNeg a => uvalid m env a /\ settled m env a
  | MAddInt a T v | MSubInt a T v => (uvalid m env a /\ settled m env a) /\ T ∈ prim_types /\ in_ty T v
  | MMulInt a T v => uvalid m env a /\ T ∈ prim_types /\ in_ty T v
  | MPow a n => uvalid m env a /\ in_ty u64 n
  end.
Close Scope Z_scope.
