(** What modint programs mean: integers, reduced at the end.  [mexpr] and [dop] are only the program syntax. *)
From Verif Require Import Prelude IntModel ModIntModel IMathSpec.
Open Scope Z_scope.

(** The integer a program expression denotes, given integers for the variables. *)
Fixpoint mden (env : list (option Z)) (e : mexpr) : Z :=
  match e with
  | MVar i => match env !! i with Some (Some z) => z | _ => 0 end
  | MNew _ v => v
  | MRaw v => v
  | MDefault => 0
  | MAdd a b => mden env a + mden env b
  | MSub a b => mden env a - mden env b
  | MMul a b => mden env a * mden env b
  | MNeg a => - mden env a
  | MAddInt a _ v => mden env a + v
  | MSubInt a _ v => mden env a - v
  | MMulInt a _ v => mden env a * v
  | MPow a n => mden env a ^ n
  end.

(** Legal programs: known variables, integers of the 12 primitive types, raw values below the modulus,
    u64 exponents (a zero exponent only for m >= 2, see C44). *)
Fixpoint mvalid (m : Z) (env : list (option Z)) (e : mexpr) : Prop :=
  match e with
  | MVar i => exists z, env !! i = Some (Some z)
  | MNew T v => T ∈ prim_types /\ in_ty T v
  | MRaw v => 0 <= v < m
  | MDefault => True
  | MAdd a b | MSub a b | MMul a b => mvalid m env a /\ mvalid m env b
  | MNeg a => mvalid m env a
  | MAddInt a T v | MSubInt a T v | MMulInt a T v => mvalid m env a /\ T ∈ prim_types /\ in_ty T v
  | MPow a n => mvalid m env a /\ in_ty u64 n /\ (2 <= m \/ 0 < n)
  end.

(** Meaning of a single-threaded DynamicModInt program: the current modulus and the integer behind each variable;
    set_modulus invalidates the variables made before it. *)
Inductive dspec : Z * list (option Z) -> dop -> Z * list (option Z) -> option Z -> Prop :=
| ds_set m0 env m : 1 <= m <= 2 ^ 31 -> dspec (m0, env) (DSet m) (m, map (fun _ => None) env) None
| ds_modulus m env : dspec (m, env) DModulus (m, env) (Some m)
| ds_let m env e v : mvalid m env e -> mod_of (mden env e) m v -> dspec (m, env) (DLet e) (m, env ++ [Some (mden env e)]) (Some v)
| ds_inv m env i x z : env !! i = Some (Some x) -> mod_of z m z -> (m | x * z - 1) ->
    dspec (m, env) (DInv i) (m, env ++ [Some z]) (Some z)
| ds_div m env i j x y z : env !! i = Some (Some x) -> env !! j = Some (Some y) -> Z.gcd y m = 1 -> mod_of z m z -> (m | z * y - x) ->
    dspec (m, env) (DDiv i j) (m, env ++ [Some z]) (Some z).

Inductive dspec_run : Z * list (option Z) -> list dop -> list (option Z) -> Prop :=
| dr_nil s : dspec_run s [] []
| dr_cons s o ops s' out outs : dspec s o s' out -> dspec_run s' ops outs -> dspec_run s (o :: ops) (out :: outs).
Close Scope Z_scope.

(** Interleavings of two threads' steps. *)
Inductive merge {A} : list A -> list A -> list A -> Prop :=
| merge_nil : merge [] [] []
| merge_l x l1 l2 l : merge l1 l2 l -> merge (x :: l1) l2 (x :: l)
| merge_r x l1 l2 l : merge l1 l2 l -> merge l1 (x :: l2) (x :: l).

Global Instance bstep_eq_dec : EqDecision bstep.
Proof. solve_decision. Defined.

(** [x] occurs before the first [y]. *)
Fixpoint before (x y : bstep) (l : list bstep) : bool :=
  match l with
  | [] => false
  | z :: l => if decide (z = x) then bool_decide (y ∈ l) else if decide (z = y) then false else before x y l
  end.
