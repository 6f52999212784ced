(** DynamicModInt used by several threads: the code of src/misc/modint.rs once more, at the granularity of single
    accesses to the two atomics of the companion Barrett (modint.rs:460-464).  All accesses are SeqCst, so an execution
    is an interleaving of the threads' accesses. *)
From Verif Require Import Prelude IntModel IMathModel ModIntModel.
Open Scope Z_scope.

(** What a thread still has to do: its result, or its next access and how it goes on. *)
Inductive acts (A : Type) : Type :=
| ARet (r : res A)
| ALoadM (k : Z -> acts A)
| ALoadIm (k : Z -> acts A)
| AStoreM (v : Z) (k : acts A)
| AStoreIm (v : Z) (k : acts A).
Arguments ARet {A} _. Arguments ALoadM {A} _. Arguments ALoadIm {A} _. Arguments AStoreM {A} _ _. Arguments AStoreIm {A} _ _.

(** First [a], then [f] of its value; a panic ends the thread. *)
Fixpoint abind {A B} (a : acts A) (f : A -> acts B) : acts B :=
  match a with
  | ARet (Ok x) => f x
  | ARet Panic => ARet Panic
  | ARet Diverge => ARet Diverge
  | ALoadM k => ALoadM (fun v => abind (k v) f)
  | ALoadIm k => ALoadIm (fun v => abind (k v) f)
  | AStoreM v k => AStoreM v (abind k f)
  | AStoreIm v k => AStoreIm v (abind k f)
  end.

(** modint.rs:489-491  umod *)
Definition c_modulus : acts Z := ALoadM (fun m => ARet (Ok m)).
(** modint.rs:355-360 and 482-486  set_modulus: im is computed first, then stored second *)
Definition c_set (m : Z) : acts unit :=
  if m =? 0 then ARet Panic else abind (ARet (barrett_new m)) (fun br => AStoreM (br_m br) (AStoreIm (br_im br) (ARet (Ok tt)))).
(** modint.rs:657-659  new *)
Definition c_new (T : ity) (v : Z) : acts Z := ALoadM (fun m => ARet (mi_new m T v)).
(** modint.rs:795-802  add_impl *)
Definition c_add (a b : Z) : acts Z := ALoadM (fun m => ARet (mi_add m a b)).
(** modint.rs:805-812  sub_impl *)
Definition c_sub (a b : Z) : acts Z := ALoadM (fun m => ARet (mi_sub m a b)).
(** modint.rs:790-792  neg_impl *)
Definition c_neg (a : Z) : acts Z := c_sub 0 a.
(** modint.rs:829-834 and 494-498  mul_impl: two loads *)
Definition c_mul (a b : Z) : acts Z := ALoadM (fun m => ALoadIm (fun im => ARet (mul_mod a b m im))).
(** modint.rs:675-686  pow *)
Fixpoint c_pow_loop (fuel : nat) (n x r : Z) : acts Z :=
  match fuel with
  | O => ARet Diverge
  | S fuel =>
      if 0 <? n then
        abind (if Z.land n 1 =? 1 then c_mul r x else ARet (Ok r)) (fun r =>
        abind (c_mul x x) (fun x => c_pow_loop fuel (Z.shiftr n 1) x r))
      else ARet (Ok r)
  end.
Definition c_pow (x n : Z) : acts Z := c_pow_loop 66 n x 1.
(** modint.rs:754-760  inv_for_non_prime_modulus: the modulus is loaded a second time by `new` *)
Definition c_inv (a : Z) : acts Z :=
  ALoadM (fun m => abind (ARet (inv_gcd a m)) (fun '(g, x) => if negb (g =? 1) then ARet Panic else c_new i64 x)).
(** modint.rs:817-819  div_impl *)
Definition c_div (a b : Z) : acts Z := abind (c_inv b) (fun i => c_mul a i).

(** Operands are evaluated from the left to the right, as in [meval]. *)
Fixpoint c_eval (env : list Z) (e : mexpr) : acts Z :=
  match e with
  | MVar i => ARet (vget env i)
  | MNew T v => c_new T v
  | MRaw v => ARet (Ok v)
  | MDefault => ARet (Ok mi_default)
  | MAdd a b => abind (c_eval env a) (fun x => abind (c_eval env b) (fun y => c_add x y))
  | MSub a b => abind (c_eval env a) (fun x => abind (c_eval env b) (fun y => c_sub x y))
  | MMul a b => abind (c_eval env a) (fun x => abind (c_eval env b) (fun y => c_mul x y))
  | MNeg a => abind (c_eval env a) (fun x => c_neg x)
  | MAddInt a T v => abind (c_eval env a) (fun x => abind (c_new T v) (fun y => c_add x y))
  | MSubInt a T v => abind (c_eval env a) (fun x => abind (c_new T v) (fun y => c_sub x y))
  | MMulInt a T v => abind (c_eval env a) (fun x => abind (c_new T v) (fun y => c_mul x y))
  | MPow a n => abind (c_eval env a) (fun x => c_pow x n)
  end.

(** One operation of a thread: the thread's variables afterwards and what it observed, as in [dstep]. *)
Definition c_op (env : list Z) (o : dop) : acts (list Z * option Z) :=
  match o with
  | DSet m => abind (c_set m) (fun _ => ARet (Ok (env, None)))
  | DModulus => abind c_modulus (fun m => ARet (Ok (env, Some m)))
  | DLet e => abind (c_eval env e) (fun v => ARet (Ok (env ++ [v], Some v)))
  | DInv i => abind (ARet (vget env i)) (fun x => abind (c_inv x) (fun v => ARet (Ok (env ++ [v], Some v))))
  | DDiv i j => abind (ARet (vget env i)) (fun x => abind (ARet (vget env j)) (fun y => abind (c_div x y) (fun v => ARet (Ok (env ++ [v], Some v)))))
  end.
Fixpoint c_prog (env : list Z) (ops : list dop) : acts (list (option Z)) :=
  match ops with
  | [] => ARet (Ok [])
  | o :: ops => abind (c_op env o) (fun '(env, out) => abind (c_prog env ops) (fun outs => ARet (Ok (out :: outs))))
  end.

(** One access. *)
Definition tstep {A} (br : barrett) (a : acts A) : barrett * acts A :=
  match a with
  | ARet r => (br, ARet r)
  | ALoadM k => (br, k (br_m br))
  | ALoadIm k => (br, k (br_im br))
  | AStoreM v k => (Barrett v (br_im br), k)
  | AStoreIm v k => (Barrett (br_m br) v, k)
  end.
(** The machine: the shared Barrett and the threads.  A schedule says whose turn it is. *)
Definition mstep {A} (s : barrett * list (acts A)) (i : nat) : barrett * list (acts A) :=
  let '(br, ths) := s in
  match ths !! i with
  | Some a => let '(br', a') := tstep br a in (br', <[i := a']> ths)
  | None => (br, ths)
  end.
Definition mrun {A} (s : barrett * list (acts A)) (sched : list nat) : barrett * list (acts A) := foldl mstep s sched.
Close Scope Z_scope.
