(** A tree whose vertices hold values, with updates that may unwind: every vertex holds the values it may be taken to hold, the
    one stored last first (as in LazyUnwindSpec.v for an array). *)
From Verif Require Import Prelude ArraySpec LazySpec TreeSpec HldSpec TreeUnwindSpec LazyUnwindSpec.

Section Spec.
  Context {S F : Type} (e : S) (op : S -> S -> S) (mapping : F -> S -> S).
  Context (g : list (list nat)) (root : nat) (ord : list nat).

  (** A map that completed acts on every candidate; of one that unwound in the middle it is not known whether it counts. *)
  Definition all_mapped (f : F) (c : list S) : list S := map (mapping f) c.
  Definition maybe_mapped (f : F) (c : list S) : list S := map (mapping f) c ++ c.

  Definition hld_cells_step (cells : list (list S)) (o : hld_op S F) (out : option (hld_out S)) (cells' : list (list S)) : Prop :=
    match o with
    | HApplyPath u v f =>
        match out with
        | Some HUnit => u < length g /\ v < length g /\ exists l, is_path g u v l /\ mapped all_mapped (fun x => x ∈ l) f cells cells'
        | Some _ => False
        | None =>
            (** the path is handled piece by piece: some pieces are done, one is in doubt, the rest is untouched *)
            if (u <? length g) && (v <? length g) then
              exists l done doubt rest cells1, is_path g u v l /\ by_pieces g root ord (done ++ doubt ++ rest) l /\ descending g root ord doubt /\
                mapped all_mapped (fun x => x ∈ done) f cells cells1 /\ mapped maybe_mapped (fun x => x ∈ doubt) f cells1 cells'
            else cells' = cells
        end
    | HPathProd u v =>
        cells' = cells /\
        match out with
        | Some (HVal x) => u < length g /\ v < length g /\
            exists l l', is_path g u v l /\ by_pieces g root ord l' l /\ some_prod e op (vals [] cells l') x
        | Some _ => False
        | None => True
        end
    | HApplySubtree u f =>
        match out with
        | Some HUnit => u < length g /\ mapped all_mapped (ancestor g root u) f cells cells'
        | Some _ => False
        | None => if u <? length g then mapped maybe_mapped (ancestor g root u) f cells cells' else cells' = cells
        end
    | HSubtreeProd u =>
        cells' = cells /\
        match out with
        | Some (HVal x) => u < length g /\
            exists l, sublist l ord /\ (forall x, x ∈ l <-> x < length g /\ ancestor g root u x) /\ some_prod e op (vals [] cells l) x
        | Some _ => False
        | None => True
        end
    | HGet u =>
        cells' = cells /\
        match out with
        | Some (HVal x) => exists c, cells !! u = Some (x :: c)
        | Some _ => False
        | None => length g <= u
        end
    | HSet u x =>
        match out with
        | Some HUnit => u < length g /\ cells' = <[u := [x]]> cells
        | Some _ => False
        | None => cells' = alter (cons x) u cells
        end
    | HData o =>
        length cells' = length cells /\
        match out with
        | Some (HDataOut y) => lz_cells_step e op mapping (vals [] cells ord) o (Some y) (vals [] cells' ord)
        | Some _ => False
        | None => lz_cells_step e op mapping (vals [] cells ord) o None (vals [] cells' ord)
        end
    end.

  (** A history over one value per vertex in which every refused call is caught and leaves the tree alone. *)
  Inductive hld_refusing_run : list S -> list (hld_op S F) -> list (option (hld_out S)) -> Prop :=
  | hrr_nil w : hld_refusing_run w [] []
  | hrr_ok w w' o out ops outs :
      hld_allowed e op mapping g root ord (by_pieces g root ord) w o (Ok (w', out)) -> hld_refusing_run w' ops outs ->
      hld_refusing_run w (o :: ops) (Some out :: outs)
  | hrr_refused w o ops outs :
      hld_allowed e op mapping g root ord (by_pieces g root ord) w o Panic -> hld_refusing_run w ops outs ->
      hld_refusing_run w (o :: ops) (None :: outs).
End Spec.
