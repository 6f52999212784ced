(** src/graph/heavy_light_decomp.rs over an operation, a mapping and a composition that may panic.  The tree part (hl) is HldModel.v's. *)
From Verif Require Import Prelude UtilModel LazySpec LazyModel LazyChkModel HldSpec HldModel.

Section Hld.
  Context {S F : Type} (e : S) (opc : S -> S -> res S) (idm : F) (mappingc : F -> S -> res S) (compc : F -> F -> res F).

  (** heavy_light_decomp.rs:19-36  new *)
  Definition hldc_new (g : list (list nat)) (root : nat) : res (hld S F) :=
    rassert (root <? length g) ;;
    data ← ltc_new e opc idm (length g);
    h ← hl_new g root;
    Ok (Hld data h).

  (** heavy_light_decomp.rs:38-47  with_init_value *)
  Definition hldc_with_init (g : list (list nat)) (root : nat) (v : list S) : res (hld S F) :=
    rassert (length g =? length v) ;;
    h ← hldc_new g root;
    a ← rfor (range 0 (length v)) (fun i a => p ← vget (h_pos (hd_tree h)) i; x ← vget v i; vset a p x) v;
    data ← ltc_from e opc idm a;
    Ok (Hld data (hd_tree h)).

  (** heavy_light_decomp.rs:84-90  one iteration of the while loop of apply_path *)
  Definition apply_pathc_step (h : hl) (f : F) (s : nat * nat * lazytree S F) : res ((nat * nat * lazytree S F) + (nat * nat * lazytree S F)) :=
    let '(u, v, t) := s in
    c ← climb h u v;
    match c with
    | None => Ok (inr (u, v, t))
    | Some (u, v) =>
        hu ← vget (h_head h) u;
        l ← vget (h_pos h) hu;
        r ← vget (h_pos h) u;
        t ← ltc_apply_range opc idm mappingc compc t l (r + 1) f;
        p ← vget (h_parent h) hu;
        Ok (inl (p, v, t))
    end.

  (** heavy_light_decomp.rs:83-95  apply_path *)
  Definition hldc_apply_path (x : hld S F) (u v : nat) (f : F) : res (hld S F) :=
    let h := hd_tree x in
    s ← rloop (path_fuel x) (apply_pathc_step h f) (u, v, hd_data x);
    let '(u, v, t) := s in
    uv ← by_pos h u v;
    l ← vget (h_pos h) uv.1;
    r ← vget (h_pos h) uv.2;
    t ← ltc_apply_range opc idm mappingc compc t l (r + 1) f;
    Ok (Hld t h).

  (** heavy_light_decomp.rs:99-105  one iteration of the while loop of path_prod *)
  Definition path_prodc_step (h : hl) (s : nat * nat * lazytree S F * S) : res ((nat * nat * lazytree S F * S) + (nat * nat * lazytree S F * S)) :=
    let '(u, v, t, acc) := s in
    c ← climb h u v;
    match c with
    | None => Ok (inr (u, v, t, acc))
    | Some (u, v) =>
        hu ← vget (h_head h) u;
        l ← vget (h_pos h) hu;
        r ← vget (h_pos h) u;
        y ← ltc_prod e opc idm mappingc compc t l (r + 1);
        let '(t, z) := y in
        acc ← opc acc z;
        p ← vget (h_parent h) hu;
        Ok (inl (p, v, t, acc))
    end.

  (** heavy_light_decomp.rs:97-111  path_prod *)
  Definition hldc_path_prod (x : hld S F) (u v : nat) : res (hld S F * S) :=
    let h := hd_tree x in
    s ← rloop (path_fuel x) (path_prodc_step h) (u, v, hd_data x, e);
    let '(u, v, t, acc) := s in
    uv ← by_pos h u v;
    l ← vget (h_pos h) uv.1;
    r ← vget (h_pos h) uv.2;
    y ← ltc_prod e opc idm mappingc compc t l (r + 1);
    let '(t, z) := y in
    acc ← opc acc z;
    Ok (Hld t h, acc).

  (** heavy_light_decomp.rs:113-115  apply_subtree *)
  Definition hldc_apply_subtree (x : hld S F) (u : nat) (f : F) : res (hld S F) :=
    l ← vget (h_pos (hd_tree x)) u;
    r ← vget (h_posr (hd_tree x)) u;
    t ← ltc_apply_range opc idm mappingc compc (hd_data x) l r f;
    Ok (Hld t (hd_tree x)).

  (** heavy_light_decomp.rs:117-119  subtree_prod *)
  Definition hldc_subtree_prod (x : hld S F) (u : nat) : res (hld S F * S) :=
    l ← vget (h_pos (hd_tree x)) u;
    r ← vget (h_posr (hd_tree x)) u;
    y ← ltc_prod e opc idm mappingc compc (hd_data x) l r;
    Ok (Hld y.1 (hd_tree x), y.2).

  (** heavy_light_decomp.rs:122-124  get *)
  Definition hldc_get (x : hld S F) (u : nat) : res (hld S F * S) :=
    p ← vget (h_pos (hd_tree x)) u;
    y ← ltc_get idm mappingc compc (hd_data x) p;
    Ok (Hld y.1 (hd_tree x), y.2).

  (** heavy_light_decomp.rs:127-129  set *)
  Definition hldc_set (x : hld S F) (u : nat) (y : S) : res (hld S F) :=
    p ← vget (h_pos (hd_tree x)) u;
    t ← ltc_set opc idm mappingc compc (hd_data x) p y;
    Ok (Hld t (hd_tree x)).

  (** One public API call. *)
  Definition hldc_step (x : hld S F) (o : hld_op S F) : res (hld S F * hld_out S) :=
    match o with
    | HApplyPath u v f => x ← hldc_apply_path x u v f; Ok (x, HUnit)
    | HPathProd u v => '(x, y) ← hldc_path_prod x u v; Ok (x, HVal y)
    | HApplySubtree u f => x ← hldc_apply_subtree x u f; Ok (x, HUnit)
    | HSubtreeProd u => '(x, y) ← hldc_subtree_prod x u; Ok (x, HVal y)
    | HGet u => '(x, y) ← hldc_get x u; Ok (x, HVal y)
    | HSet u y => x ← hldc_set x u y; Ok (x, HUnit)
    | HData o => '(t, y) ← ltc_step e opc idm mappingc compc (hd_data x) o; Ok (Hld t (hd_tree x), HDataOut y)
    end.
End Hld.
