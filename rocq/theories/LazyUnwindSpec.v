(** A plain array with maps over ranges whose updates may unwind: every place holds the values it may be taken to hold, the
    one stored last first.  After an update that completed the other candidates of a set are forgotten and those of a map are
    mapped; one that unwound adds the new candidates before the old ones. *)
From Verif Require Import Prelude ArraySpec LazySpec TreeUnwindSpec.

Definition lz_cells_step {S F} (e : S) (op : S -> S -> S) (mapping : F -> S -> S)
    (cells : list (list S)) (o : lz_op S F) (out : option (lz_out S)) (cells' : list (list S)) : Prop :=
  match o with
  | LzSet p x =>
      match out with
      | Some LzUnit => p < length cells /\ cells' = <[p := [x]]> cells
      | Some _ => False
      | None => cells' = alter (cons x) p cells
      end
  | LzGet p =>
      cells' = cells /\
      match out with
      | Some (LzVal v) => exists c, cells !! p = Some (v :: c)
      | Some _ => False
      | None => length cells <= p
      end
  | LzProd l r =>
      cells' = cells /\
      match out with
      | Some (LzVal v) => l <= r <= length cells /\ some_prod e op (slice cells l r) v
      | Some _ => False
      | None => True
      end
  | LzAllProd => cells' = cells /\ exists v, out = Some (LzVal v) /\ some_prod e op cells v
  | LzApply p f =>
      match out with
      | Some LzUnit => p < length cells /\ cells' = alter (map (mapping f)) p cells
      | Some _ => False
      | None => cells' = alter (fun c => map (mapping f) c ++ c) p cells
      end
  | LzApplyRange l r f =>
      match out with
      | Some LzUnit => l <= r <= length cells /\ cells' = map_range (map (mapping f)) l r cells
      | Some _ => False
      | None => cells' = if (l <=? r) && (r <=? length cells) then map_range (fun c => map (mapping f) c ++ c) l r cells else cells
      end
  | LzMaxRight l _ =>
      cells' = cells /\
      match out with
      | Some (LzIdx i) => l <= length cells /\ l <= i
      | Some _ => False
      | None => True
      end
  | LzMinLeft r _ =>
      cells' = cells /\
      match out with
      | Some (LzIdx i) => r <= length cells /\ i <= r
      | Some _ => False
      | None => True
      end
  end.

(** A history on the plain array in which every refused call is caught and leaves the array alone. *)
Inductive lz_refusing_run {S F} (e : S) (op : S -> S -> S) (mapping : F -> S -> S) : list S -> list (lz_op S F) -> list (option (lz_out S)) -> Prop :=
| lrr_nil a : lz_refusing_run e op mapping a [] []
| lrr_ok a a' o out ops outs :
    lz_allowed e op mapping a o (Ok (a', out)) -> lz_refusing_run e op mapping a' ops outs ->
    lz_refusing_run e op mapping a (o :: ops) (Some out :: outs)
| lrr_refused a o ops outs :
    lz_allowed e op mapping a o Panic -> lz_refusing_run e op mapping a ops outs ->
    lz_refusing_run e op mapping a (o :: ops) (None :: outs).
