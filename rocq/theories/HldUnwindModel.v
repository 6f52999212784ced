(** Model of src/graph/heavy_light_decomp.rs over an operation, a mapping and a composition that may panic, with the memory
    a panic leaves behind.  The tree part (hl) is HldModel.v's: no method writes it after the constructor. *)
From Verif Require Import Prelude UtilModel LazySpec LazyModel LazyUnwindModel HldSpec HldModel Unwind.

Section Hld.
  (** src/traits/monoid.rs:7-23  trait MapMonoid; the three functions may panic. *)
  Context {S F : Type} (e : S) (opc : S -> S -> res S) (idm : F) (mappingc : F -> S -> res S) (compc : F -> F -> res F).
  Local Notation apply_range := (ltu_apply_range opc idm mappingc compc).
  Local Notation prod := (ltu_prod e opc idm mappingc compc).

  (** A method: only the field data changes. *)
  Definition on_data {A} (m : hl -> uw (lazytree S F) A) : uw (hld S F) A :=
    fun x => '(t, o) ← m (hd_tree x) (hd_data x); Ok (Hld t (hd_tree x), o).

  (** heavy_light_decomp.rs:84-90  one iteration of the while loop of apply_path *)
  Definition apply_pathu_step (h : hl) (f : F) (b : nat * nat) : uw (lazytree S F) ((nat * nat) + (nat * nat)) :=
    let '(u, v) := b in
    c <~ uread (fun _ => climb h u v) ;~
    match c with
    | None => uret (inr (u, v))
    | Some (u, v) =>
        hu <~ uread (fun _ => vget (h_head h) u) ;~
        (l <~ uread (fun _ => vget (h_pos h) hu) ;~
         (r <~ uread (fun _ => vget (h_pos h) u) ;~
          (apply_range l (r + 1) f ;;~
           (p <~ uread (fun _ => vget (h_parent h) hu) ;~
            uret (inl (p, v))))))
    end.

  (** heavy_light_decomp.rs:83-95  apply_path *)
  Definition hldu_apply_path (u v : nat) (f : F) : uw (hld S F) unit :=
    on_data (fun h =>
      b <~ uloop (2 * length (h_pos h) + 1) (apply_pathu_step h f) (u, v) ;~
      (uv <~ uread (fun _ => by_pos h b.1 b.2) ;~
       (l <~ uread (fun _ => vget (h_pos h) uv.1) ;~
        (r <~ uread (fun _ => vget (h_pos h) uv.2) ;~
         apply_range l (r + 1) f)))).

  (** heavy_light_decomp.rs:99-105  one iteration of the while loop of path_prod *)
  Definition path_produ_step (h : hl) (b : nat * nat * S) : uw (lazytree S F) ((nat * nat * S) + (nat * nat * S)) :=
    let '(u, v, acc) := b in
    c <~ uread (fun _ => climb h u v) ;~
    match c with
    | None => uret (inr (u, v, acc))
    | Some (u, v) =>
        hu <~ uread (fun _ => vget (h_head h) u) ;~
        (l <~ uread (fun _ => vget (h_pos h) hu) ;~
         (r <~ uread (fun _ => vget (h_pos h) u) ;~
          (z <~ prod l (r + 1) ;~
           (acc <~ uread (fun _ => opc acc z) ;~
            (p <~ uread (fun _ => vget (h_parent h) hu) ;~
             uret (inl (p, v, acc)))))))
    end.

  (** heavy_light_decomp.rs:97-111  path_prod *)
  Definition hldu_path_prod (u v : nat) : uw (hld S F) S :=
    on_data (fun h =>
      b <~ uloop (2 * length (h_pos h) + 1) (path_produ_step h) (u, v, e) ;~
      (uv <~ uread (fun _ => by_pos h b.1.1 b.1.2) ;~
       (l <~ uread (fun _ => vget (h_pos h) uv.1) ;~
        (r <~ uread (fun _ => vget (h_pos h) uv.2) ;~
         (z <~ prod l (r + 1) ;~
          uread (fun _ => opc b.2 z)))))).

  (** heavy_light_decomp.rs:113-115  apply_subtree *)
  Definition hldu_apply_subtree (u : nat) (f : F) : uw (hld S F) unit :=
    on_data (fun h =>
      l <~ uread (fun _ => vget (h_pos h) u) ;~
      (r <~ uread (fun _ => vget (h_posr h) u) ;~
       apply_range l r f)).

  (** heavy_light_decomp.rs:117-119  subtree_prod *)
  Definition hldu_subtree_prod (u : nat) : uw (hld S F) S :=
    on_data (fun h =>
      l <~ uread (fun _ => vget (h_pos h) u) ;~
      (r <~ uread (fun _ => vget (h_posr h) u) ;~
       prod l r)).

  (** heavy_light_decomp.rs:122-124  get *)
  Definition hldu_get (u : nat) : uw (hld S F) S :=
    on_data (fun h => p <~ uread (fun _ => vget (h_pos h) u) ;~ ltu_get idm mappingc compc p).

  (** heavy_light_decomp.rs:127-129  set *)
  Definition hldu_set (u : nat) (y : S) : uw (hld S F) unit :=
    on_data (fun h => p <~ uread (fun _ => vget (h_pos h) u) ;~ ltu_set opc idm mappingc compc p y).

  (** One public API call; HData is a call on the public field data (heavy_light_decomp.rs:9). *)
  Definition hldu_step (o : hld_op S F) : uw (hld S F) (hld_out S) :=
    match o with
    | HApplyPath u v f => hldu_apply_path u v f ;;~ uret HUnit
    | HPathProd u v => y <~ hldu_path_prod u v ;~ uret (HVal y)
    | HApplySubtree u f => hldu_apply_subtree u f ;;~ uret HUnit
    | HSubtreeProd u => y <~ hldu_subtree_prod u ;~ uret (HVal y)
    | HGet u => y <~ hldu_get u ;~ uret (HVal y)
    | HSet u y => hldu_set u y ;;~ uret HUnit
    | HData o => y <~ on_data (fun _ => ltu_step e opc idm mappingc compc o) ;~ uret (HDataOut y)
    end.
End Hld.
