(** src/graph/heavy_light_decomp.rs over an operation, a mapping and a composition with side effects.  The tree part (hl) is HldModel.v's. *)
From Verif Require Import Prelude UtilModel LazySpec LazyModel Eff EffSpec LazyEffModel HldSpec HldModel HldEffSpec.

Section Hld.
  Context {W S F : Type} (e : S) (opE : S -> S -> eff W S) (idm : F) (mappingE : F -> S -> eff W S) (compE : F -> F -> eff W F).

  (** heavy_light_decomp.rs:19-36  new *)
  Definition hlde_new (g : list (list nat)) (root : nat) : eff W (hld S F) :=
    elift (rassert (root <? length g)) ;;*
    data <* lte_new e opE idm (length g) ;*
    h <* elift (hl_new g root) ;*
    eret (Hld data h).

  (** heavy_light_decomp.rs:38-47  with_init_value *)
  Definition hlde_with_init (g : list (list nat)) (root : nat) (v : list S) : eff W (hld S F) :=
    elift (rassert (length g =? length v)) ;;*
    h <* hlde_new g root ;*
    a <* elift (rfor (range 0 (length v)) (fun i a => p ← vget (h_pos (hd_tree h)) i; x ← vget v i; vset a p x) v) ;*
    data <* lte_from e opE idm a ;*
    eret (Hld data (hd_tree h)).

  (** heavy_light_decomp.rs:84-90  one iteration of the while loop of apply_path *)
  Definition apply_pathe_step (h : hl) (f : F) (s : nat * nat * lazytree S F) : eff W ((nat * nat * lazytree S F) + (nat * nat * lazytree S F)) :=
    let '(u, v, t) := s in
    c <* elift (climb h u v) ;*
    match c with
    | None => eret (inr (u, v, t))
    | Some (u, v) =>
        hu <* elift (vget (h_head h) u) ;*
        l <* elift (vget (h_pos h) hu) ;*
        r <* elift (vget (h_pos h) u) ;*
        t <* lte_apply_range opE idm mappingE compE t l (r + 1) f ;*
        p <* elift (vget (h_parent h) hu) ;*
        eret (inl (p, v, t))
    end.

  (** heavy_light_decomp.rs:83-95  apply_path *)
  Definition hlde_apply_path (x : hld S F) (u v : nat) (f : F) : eff W (hld S F) :=
    let h := hd_tree x in
    s <* eloop (path_fuel x) (apply_pathe_step h f) (u, v, hd_data x) ;*
    let '(u, v, t) := s in
    uv <* elift (by_pos h u v) ;*
    l <* elift (vget (h_pos h) uv.1) ;*
    r <* elift (vget (h_pos h) uv.2) ;*
    t <* lte_apply_range opE idm mappingE compE t l (r + 1) f ;*
    eret (Hld t h).

  (** heavy_light_decomp.rs:99-105  one iteration of the while loop of path_prod *)
  Definition path_prode_step (h : hl) (s : nat * nat * lazytree S F * S) : eff W ((nat * nat * lazytree S F * S) + (nat * nat * lazytree S F * S)) :=
    let '(u, v, t, acc) := s in
    c <* elift (climb h u v) ;*
    match c with
    | None => eret (inr (u, v, t, acc))
    | Some (u, v) =>
        hu <* elift (vget (h_head h) u) ;*
        l <* elift (vget (h_pos h) hu) ;*
        r <* elift (vget (h_pos h) u) ;*
        y <* lte_prod e opE idm mappingE compE t l (r + 1) ;*
        let '(t, z) := y in
        acc <* opE acc z ;*
        p <* elift (vget (h_parent h) hu) ;*
        eret (inl (p, v, t, acc))
    end.

  (** heavy_light_decomp.rs:97-111  path_prod *)
  Definition hlde_path_prod (x : hld S F) (u v : nat) : eff W (hld S F * S) :=
    let h := hd_tree x in
    s <* eloop (path_fuel x) (path_prode_step h) (u, v, hd_data x, e) ;*
    let '(u, v, t, acc) := s in
    uv <* elift (by_pos h u v) ;*
    l <* elift (vget (h_pos h) uv.1) ;*
    r <* elift (vget (h_pos h) uv.2) ;*
    y <* lte_prod e opE idm mappingE compE t l (r + 1) ;*
    let '(t, z) := y in
    acc <* opE acc z ;*
    eret (Hld t h, acc).

  (** heavy_light_decomp.rs:113-115  apply_subtree *)
  Definition hlde_apply_subtree (x : hld S F) (u : nat) (f : F) : eff W (hld S F) :=
    l <* elift (vget (h_pos (hd_tree x)) u) ;*
    r <* elift (vget (h_posr (hd_tree x)) u) ;*
    t <* lte_apply_range opE idm mappingE compE (hd_data x) l r f ;*
    eret (Hld t (hd_tree x)).

  (** heavy_light_decomp.rs:117-119  subtree_prod *)
  Definition hlde_subtree_prod (x : hld S F) (u : nat) : eff W (hld S F * S) :=
    l <* elift (vget (h_pos (hd_tree x)) u) ;*
    r <* elift (vget (h_posr (hd_tree x)) u) ;*
    y <* lte_prod e opE idm mappingE compE (hd_data x) l r ;*
    eret (Hld y.1 (hd_tree x), y.2).

  (** heavy_light_decomp.rs:122-124  get *)
  Definition hlde_get (x : hld S F) (u : nat) : eff W (hld S F * S) :=
    p <* elift (vget (h_pos (hd_tree x)) u) ;*
    y <* lte_get idm mappingE compE (hd_data x) p ;*
    eret (Hld y.1 (hd_tree x), y.2).

  (** heavy_light_decomp.rs:127-129  set *)
  Definition hlde_set (x : hld S F) (u : nat) (y : S) : eff W (hld S F) :=
    p <* elift (vget (h_pos (hd_tree x)) u) ;*
    t <* lte_set opE idm mappingE compE (hd_data x) p y ;*
    eret (Hld t (hd_tree x)).

  (** One public API call. *)
  Definition hlde_step (x : hld S F) (o : hle_op W S F) : eff W (hld S F * hld_out S) :=
    match o with
    | HeApplyPath u v f => x <* hlde_apply_path x u v f ;* eret (x, HUnit)
    | HePathProd u v => '(x, y) <* hlde_path_prod x u v ;* eret (x, HVal y)
    | HeApplySubtree u f => x <* hlde_apply_subtree x u f ;* eret (x, HUnit)
    | HeSubtreeProd u => '(x, y) <* hlde_subtree_prod x u ;* eret (x, HVal y)
    | HeGet u => '(x, y) <* hlde_get x u ;* eret (x, HVal y)
    | HeSet u y => x <* hlde_set x u y ;* eret (x, HUnit)
    | HeData o => '(t, y) <* lte_step e opE idm mappingE compE (hd_data x) o ;* eret (Hld t (hd_tree x), HDataOut y)
    end.
End Hld.
