(** A plain array whose updates may unwind: every place holds the values it may be taken to hold.  After an update that
    completed this is one value; one that unwound adds a candidate. *)
From Verif Require Import Prelude ArraySpec SegtreeSpec FenwickSpec.

(** [ys] takes one candidate at every place. *)
Definition choice {S} (cells : list (list S)) (ys : list S) : Prop := Forall2 (fun c y => y ∈ c) cells ys.
(** [v] is the product over some choice. *)
Definition some_prod {S} (e : S) (op : S -> S -> S) (cells : list (list S)) (v : S) : Prop := exists ys, choice cells ys /\ v = mprod e op ys.

(** Segtree: the value stored last comes first, so that get can tell it.  A completed set forgets the other candidates. *)
Definition sg_cells_step {S} (e : S) (op : S -> S -> S) (cells : list (list S)) (o : sg_op S) (out : option (sg_out S)) (cells' : list (list S)) : Prop :=
  match o with
  | SgSet p x =>
      match out with
      | Some SgUnit => p < length cells /\ cells' = <[p := [x]]> cells
      | Some (SgVal _) => False
      | None => cells' = alter (cons x) p cells
      end
  | SgGet p =>
      cells' = cells /\
      match out with
      | Some (SgVal v) => exists c, cells !! p = Some (v :: c)
      | Some SgUnit => False
      | None => length cells <= p
      end
  | SgProd l r =>
      cells' = cells /\
      match out with
      | Some (SgVal v) => l <= r <= length cells /\ some_prod e op (slice cells l r) v
      | Some SgUnit => False
      | None => True
      end
  | SgAllProd => cells' = cells /\ exists v, out = Some (SgVal v) /\ some_prod e op cells v
  end.

(** FenwickTree: an add that unwound may or may not count; one out of range does nothing. *)
Definition fw_cells_step {T U} (zero : T) (add sub : T -> T -> T) (addu : T -> U -> T)
    (cells : list (list T)) (o : fw_op T U) (out : option (fw_out T)) (cells' : list (list T)) : Prop :=
  match o with
  | FwAdd i u =>
      match out with
      | Some FwUnit => cells' = alter (map (fun x => addu x u)) i cells
      | Some (FwVal _) => False
      | None => i < length cells /\ cells' = alter (fun c => c ++ map (fun x => addu x u) c) i cells
      end
  | FwPref i =>
      cells' = cells /\
      match out with
      | Some (FwVal v) => i <= length cells /\ some_prod zero add (slice cells 0 i) v
      | Some FwUnit => False
      | None => True
      end
  | FwSum l r =>
      cells' = cells /\
      match out with
      | Some (FwVal v) => l <= length cells /\ r <= length cells /\
          exists x y, some_prod zero add (slice cells 0 r) x /\ some_prod zero add (slice cells 0 l) y /\ v = sub x y
      | Some FwUnit => False
      | None => True
      end
  end.

(** Along a history. *)
Fixpoint cells_run {S Op Out} (step : list (list S) -> Op -> option Out -> list (list S) -> Prop)
    (cells : list (list S)) (ops : list Op) (outs : list (option Out)) (cells' : list (list S)) : Prop :=
  match ops, outs with
  | [], [] => cells' = cells
  | o :: ops, out :: outs => exists c, step cells o out c /\ cells_run step c ops outs cells'
  | _, _ => False
  end.
