(** How often a structure over n elements may call the caller's functions, and what it means that a function with side effects acts
    like a plain one. *)
From stdpp Require Import relations.
From Verif Require Import Prelude Eff ArraySpec LazySpec FenwickSpec.

(** Every call of fE ends as f does, whatever the state is; if it returns it has changed the state by one step of R. *)
Definition acts_res {W A B} (R : relation W) (f : A -> res B) (fE : A -> eff W B) : Prop :=
  forall a w, match f a with
    | Ok b => exists w', fE a w = Ok (b, w') /\ R w w'
    | Panic => fE a w = Panic
    | Diverge => fE a w = Diverge
    end.
Definition acts {W A B} (R : relation W) (f : A -> B) (fE : A -> eff W B) : Prop := acts_res R (fun a => Ok (f a)) fE.

(** A public call, as in LazySpec.v; a predicate is what it answers together with what it does. *)
Inductive ef_op (W S F : Type) :=
| EfSet (p : nat) (x : S)
| EfGet (p : nat)
| EfProd (l r : nat)
| EfAllProd
| EfApply (p : nat) (f : F)
| EfApplyRange (l r : nat) (f : F)
| EfMaxRight (l : nat) (g : S -> bool) (gE : S -> eff W bool)
| EfMinLeft (r : nat) (g : S -> bool) (gE : S -> eff W bool).
Arguments EfSet {W S F}. Arguments EfGet {W S F}. Arguments EfProd {W S F}. Arguments EfAllProd {W S F}.
Arguments EfApply {W S F}. Arguments EfApplyRange {W S F}. Arguments EfMaxRight {W S F}. Arguments EfMinLeft {W S F}.

(** The call without what the predicate does *)
Definition plain {W S F} (o : ef_op W S F) : lz_op S F :=
  match o with
  | EfSet p x => LzSet p x
  | EfGet p => LzGet p
  | EfProd l r => LzProd l r
  | EfAllProd => LzAllProd
  | EfApply p f => LzApply p f
  | EfApplyRange l r f => LzApplyRange l r f
  | EfMaxRight l g _ => LzMaxRight l g
  | EfMinLeft r g _ => LzMinLeft r g
  end.

(** The predicate of a call does what it says. *)
Definition pred_ok {W S F} (R : relation W) (o : ef_op W S F) : Prop :=
  match o with EfMaxRight _ g gE | EfMinLeft _ g gE => acts R g gE | _ => True end.

(** m ends as r does, whatever the state is; if it returns the state has made at most c steps of R. *)
Definition same_within {W A} (R : relation W) (c : nat) (m : eff W A) (r : res A) : Prop :=
  forall w, match r with
    | Ok a => exists w' k, m w = Ok (a, w') /\ nsteps R k w w' /\ k <= c
    | Panic => m w = Panic
    | Diverge => m w = Diverge
    end.
(** The answers of the history m are allowed, and if it returns the state has made at most c steps of R. *)
Definition answers_within {W St Out} (R : relation W) (c : nat) (m : eff W (St * list Out)) (allowed : res (list Out) -> Prop) : Prop :=
  forall w, match m w with
    | Ok ((_, outs), w') => allowed (Ok outs) /\ exists k, nsteps R k w w' /\ k <= c
    | Panic => allowed Panic
    | Diverge => False
    end.

(** Calls of the operation and of the predicate by one call on a Segtree *)
Definition segtree_calls {S F} (n : nat) (o : lz_op S F) : nat :=
  let L := Nat.log2_up n in
  match o with
  | LzSet _ _ => L
  | LzGet _ | LzAllProd | LzApply _ _ | LzApplyRange _ _ _ => 0
  | LzProd _ _ => 2 * L + 3
  | LzMaxRight _ _ | LzMinLeft _ _ => 5 * L + 7
  end.
(** The same on a LazySegtree, mapping and composition included *)
Definition lazy_calls {S F} (n : nat) (o : lz_op S F) : nat :=
  let L := Nat.log2_up n in
  match o with
  | LzSet _ _ => 5 * L
  | LzGet _ => 4 * L
  | LzAllProd => 0
  | LzProd _ _ => 10 * L + 3
  | LzApply _ _ => 5 * L + 1
  | LzApplyRange _ _ _ => 14 * L + 4
  | LzMaxRight _ _ | LzMinLeft _ _ => 13 * L + 7
  end.
(** Calls of the additions and the subtraction by one call on a FenwickTree *)
Definition fenwick_calls {T U} (n : nat) (o : fw_op T U) : nat :=
  match o with
  | FwAdd _ _ | FwPref _ => Nat.log2 n + 1
  | FwSum _ _ => 2 * (Nat.log2 n + 1) + 1
  end.
