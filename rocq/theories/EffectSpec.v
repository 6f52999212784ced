(** Histories on a lazily mapped array in which the predicates of the searches are closures with a state of their own. *)
From Verif Require Import Prelude ArraySpec LazySpec BisectSpec.

(** Some closures share the state [σ]; each call names the one it passes. *)
Inductive lx_op (S F σ : Type) :=
  | LxCall (o : lz_op S F)
  | LxMaxRight (l : nat) (g : σ -> S -> σ * option bool)
  | LxMinLeft (r : nat) (g : σ -> S -> σ * option bool).
Arguments LxCall {S F σ}. Arguments LxMaxRight {S F σ}. Arguments LxMinLeft {S F σ}.

(** Answers: that of an ordinary call, or the index found by a search, or [LxUnwound] if the search unwound and the
    caller caught it. *)
Inductive lx_out (S : Type) := LxOut (x : lz_out S) | LxFound (k : nat) | LxUnwound.
Arguments LxOut {S}. Arguments LxFound {S}. Arguments LxUnwound {S}.

Section Spec.
  Context {S F σ : Type} (e : S) (op : S -> S -> S) (mapping : F -> S -> S).

  Definition found (o : option nat) : lx_out S := match o with Some k => LxFound k | None => LxUnwound end.

  (** The plain array [a] has n elements; it is searched as if followed by identities up to the next power of two,
      2^m.  The predicate is first asked about the identity.  An answer in the padding other than its end is
      possible only for a predicate that contradicts itself. *)
  Definition lx_search (a : list S) (st : σ) (o : lx_op S F σ) (st' : σ) (out : lx_out S) : Prop :=
    let n := length a in
    let m := Nat.log2_up n in
    match o with
    | LxCall _ => False
    | LxMaxRight l g =>
        if n <? l then st' = st /\ out = LxUnwound
        else match g st e with
        | (st1, None) | (st1, Some false) => st' = st1 /\ out = LxUnwound
        | (st1, Some true) =>
            if l =? n then st' = st1 /\ out = LxFound n
            else exists r, bisect_u (fun k st => g st (mprod e op (slice a l k))) (2 * m + 1) st1 l (2 ^ m + 1) (st', r) /\
                   out = found ((fun k => if k =? 2 ^ m then n else k) <$> r)
        end
    | LxMinLeft r g =>
        if n <? r then st' = st /\ out = LxUnwound
        else match g st e with
        | (st1, None) | (st1, Some false) => st' = st1 /\ out = LxUnwound
        | (st1, Some true) =>
            exists j, bisect_u (fun j st => g st (mprod e op (slice a (r - j) r))) (2 * m + 1) st1 0 (r + 1) (st', j) /\
              out = found ((fun j => r - j) <$> j)
        end
    end.

  (** Allowed outcomes of a whole history.  A search, unwound or not, leaves the array alone; an ordinary call that
      panics ends the history. *)
  Inductive lx_allowed_run : list S -> σ -> list (lx_op S F σ) -> res (list (lx_out S)) -> Prop :=
  | lxr_nil a st : lx_allowed_run a st [] (Ok [])
  | lxr_panic a st o ops : lz_allowed e op mapping a o Panic -> lx_allowed_run a st (LxCall o :: ops) Panic
  | lxr_call a st a' o out ops r :
      lz_allowed e op mapping a o (Ok (a', out)) -> lx_allowed_run a' st ops r ->
      lx_allowed_run a st (LxCall o :: ops) (cons (LxOut out) <$> r)
  | lxr_search a st st' o out ops r :
      lx_search a st o st' out -> lx_allowed_run a st' ops r ->
      lx_allowed_run a st (o :: ops) (cons out <$> r).
End Spec.
