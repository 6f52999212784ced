(** Model of src/graph/heavy_light_decomp.rs *)
From Verif Require Import Prelude UtilModel ArraySpec LazySpec LazyModel HldSpec.

(** heavy_light_decomp.rs:8-16  struct HLD without the field data.
    The usize values (depths, sizes, positions) are naturals: they never exceed the number of vertices. *)
Record hl := HL { h_parent : list nat; h_dep : list nat; h_heavy : list (option nat); h_head : list nat; h_pos : list nat; h_posr : list nat }.

(** heavy_light_decomp.rs:51-61  body of the for loop of dfs1; state (self, size, max_size); the recursive call is a parameter *)
Definition dfs1_edge (rec : nat -> hl -> res (hl * nat)) (u v : nat) (st : hl * nat * nat) : res (hl * nat * nat) :=
  let '(h, size, max_size) := st in
  p ← vget (h_parent h) u;
  if v =? p then Ok st else
  parent ← vset (h_parent h) v u;
  du ← vget (h_dep h) u;
  dep ← vset (h_dep h) v (du + 1);
  x ← rec v (HL parent dep (h_heavy h) (h_head h) (h_pos h) (h_posr h));
  let '(h, child_size) := x in
  let size := size + child_size in
  if max_size <? child_size then
    heavy ← vset (h_heavy h) u (Some v);
    Ok (HL (h_parent h) (h_dep h) heavy (h_head h) (h_pos h) (h_posr h), size, child_size)
  else Ok (h, size, max_size).

(** heavy_light_decomp.rs:49-64  dfs1; recursion bounded by fuel, shown to suffice *)
Fixpoint dfs1 (fuel : nat) (g : list (list nat)) (u : nat) (h : hl) : res (hl * nat) :=
  match fuel with
  | O => Diverge
  | S fuel =>
      es ← vget g u;
      st ← rfor es (dfs1_edge (dfs1 fuel g) u) (h, 1, 0);
      let '(h, size, _) := st in
      Ok (h, size)
  end.

(** heavy_light_decomp.rs:75-79  body of the for loop of dfs2 *)
Definition dfs2_edge (rec : nat -> nat -> hl * nat -> res (hl * nat)) (u v : nat) (st : hl * nat) : res (hl * nat) :=
  p ← vget (h_parent st.1) u;
  if v =? p then Ok st else
  hc ← vget (h_heavy st.1) u;
  if bool_decide (Some v = hc) then Ok st else rec v v st.

(** heavy_light_decomp.rs:66-81  dfs2 *)
Fixpoint dfs2 (fuel : nat) (g : list (list nat)) (u head : nat) (st : hl * nat) : res (hl * nat) :=
  match fuel with
  | O => Diverge
  | S fuel =>
      let '(h, timer) := st in
      hd ← vset (h_head h) u head;
      pos ← vset (h_pos h) u timer;
      let timer := timer + 1 in
      let h := HL (h_parent h) (h_dep h) (h_heavy h) hd pos (h_posr h) in
      hc ← vget (h_heavy h) u;
      st ← (match hc with Some v => dfs2 fuel g v head (h, timer) | None => Ok (h, timer) end);
      es ← vget g u;
      st ← rfor es (dfs2_edge (dfs2 fuel g) u) st;
      let '(h, timer) := st in
      posr ← vset (h_posr h) u timer;
      Ok (HL (h_parent h) (h_dep h) (h_heavy h) (h_head h) (h_pos h) posr, timer)
  end.

(** heavy_light_decomp.rs:22-35  the tree part of new *)
Definition hl_new (g : list (list nat)) (root : nat) : res hl :=
  let n := length g in
  let h := HL (replicate n 0) (replicate n 0) (replicate n None) (replicate n 0) (replicate n 0) (replicate n 0) in
  parent ← vset (h_parent h) root root;
  x ← dfs1 (S n) g root (HL parent (h_dep h) (h_heavy h) (h_head h) (h_pos h) (h_posr h));
  st ← dfs2 (S n) g root root (x.1, 0);
  Ok st.1.

Section Hld.
  (** src/traits/monoid.rs:7-23  trait MapMonoid as pure functions, as in LazyModel *)
  Context {S F : Type} (e : S) (op : S -> S -> S) (idm : F) (mapping : F -> S -> S) (comp : F -> F -> F).

  (** heavy_light_decomp.rs:8-16  struct HLD *)
  Record hld := Hld { hd_data : lazytree S F; hd_tree : hl }.

  (** heavy_light_decomp.rs:19-36  new *)
  Definition hld_new (g : list (list nat)) (root : nat) : res hld :=
    rassert (root <? length g) ;;
    data ← lt_new e op idm (length g);
    h ← hl_new g root;
    Ok (Hld data h).

  (** heavy_light_decomp.rs:38-47  with_init_value *)
  Definition hld_with_init (g : list (list nat)) (root : nat) (v : list S) : res hld :=
    rassert (length g =? length v) ;;
    h ← hld_new g root;
    a ← rfor (range 0 (length v)) (fun i a => p ← vget (h_pos (hd_tree h)) i; x ← vget v i; vset a p x) v;
    data ← lt_from e op idm a;
    Ok (Hld data (hd_tree h)).

  (** heavy_light_decomp.rs:84-87 and 99-102  the test of the while loop and the swap:
      None when the heads agree, otherwise the pair with the deeper head first *)
  Definition climb (h : hl) (u v : nat) : res (option (nat * nat)) :=
    hu ← vget (h_head h) u;
    hv ← vget (h_head h) v;
    if hu =? hv then Ok None else
    du ← vget (h_dep h) hu;
    dv ← vget (h_dep h) hv;
    Ok (Some (if du <? dv then (v, u) else (u, v))).

  (** heavy_light_decomp.rs:91-93 and 106-108  the final swap *)
  Definition by_pos (h : hl) (u v : nat) : res (nat * nat) :=
    pu ← vget (h_pos h) u;
    pv ← vget (h_pos h) v;
    if pv <? pu then Ok (v, u) else Ok (u, v).

  (** heavy_light_decomp.rs:84-90  one iteration of the while loop of apply_path; state (u, v, data) *)
  Definition apply_path_step (h : hl) (f : F) (s : nat * nat * lazytree S F) : res ((nat * nat * lazytree S F) + (nat * nat * lazytree S F)) :=
    let '(u, v, t) := s in
    c ← climb h u v;
    match c with
    | None => Ok (inr (u, v, t))
    | Some (u, v) =>
        hu ← vget (h_head h) u;
        l ← vget (h_pos h) hu;
        r ← vget (h_pos h) u;
        t ← lt_apply_range op idm mapping comp t l (r + 1) f;
        p ← vget (h_parent h) hu;
        Ok (inl (p, v, t))
    end.

  (** heavy_light_decomp.rs:83-95  apply_path; the while loop runs at most fuel - 1 times *)
  Definition apply_path_fuel (fuel : nat) (x : hld) (u v : nat) (f : F) : res hld :=
    let h := hd_tree x in
    s ← rloop fuel (apply_path_step h f) (u, v, hd_data x);
    let '(u, v, t) := s in
    uv ← by_pos h u v;
    l ← vget (h_pos h) uv.1;
    r ← vget (h_pos h) uv.2;
    t ← lt_apply_range op idm mapping comp t l (r + 1) f;
    Ok (Hld t h).

  (** heavy_light_decomp.rs:99-105  one iteration of the while loop of path_prod; state (u, v, data, res) *)
  Definition path_prod_step (h : hl) (s : nat * nat * lazytree S F * S) : res ((nat * nat * lazytree S F * S) + (nat * nat * lazytree S F * S)) :=
    let '(u, v, t, acc) := s in
    c ← climb h u v;
    match c with
    | None => Ok (inr (u, v, t, acc))
    | Some (u, v) =>
        hu ← vget (h_head h) u;
        l ← vget (h_pos h) hu;
        r ← vget (h_pos h) u;
        y ← lt_prod e op idm mapping comp t l (r + 1);
        let '(t, z) := y in
        let acc := op acc z in
        p ← vget (h_parent h) hu;
        Ok (inl (p, v, t, acc))
    end.

  (** heavy_light_decomp.rs:97-111  path_prod *)
  Definition path_prod_fuel (fuel : nat) (x : hld) (u v : nat) : res (hld * S) :=
    let h := hd_tree x in
    s ← rloop fuel (path_prod_step h) (u, v, hd_data x, e);
    let '(u, v, t, acc) := s in
    uv ← by_pos h u v;
    l ← vget (h_pos h) uv.1;
    r ← vget (h_pos h) uv.2;
    y ← lt_prod e op idm mapping comp t l (r + 1);
    let '(t, z) := y in
    Ok (Hld t h, op acc z).

  (** Enough iterations for the two loops: every one climbs an edge. *)
  Definition path_fuel (x : hld) : nat := 2 * length (h_pos (hd_tree x)) + 1.
  Definition apply_path (x : hld) (u v : nat) (f : F) : res hld := apply_path_fuel (path_fuel x) x u v f.
  Definition path_prod (x : hld) (u v : nat) : res (hld * S) := path_prod_fuel (path_fuel x) x u v.

  (** heavy_light_decomp.rs:113-115  apply_subtree *)
  Definition apply_subtree (x : hld) (u : nat) (f : F) : res hld :=
    l ← vget (h_pos (hd_tree x)) u;
    r ← vget (h_posr (hd_tree x)) u;
    t ← lt_apply_range op idm mapping comp (hd_data x) l r f;
    Ok (Hld t (hd_tree x)).

  (** heavy_light_decomp.rs:117-119  subtree_prod *)
  Definition subtree_prod (x : hld) (u : nat) : res (hld * S) :=
    l ← vget (h_pos (hd_tree x)) u;
    r ← vget (h_posr (hd_tree x)) u;
    y ← lt_prod e op idm mapping comp (hd_data x) l r;
    Ok (Hld y.1 (hd_tree x), y.2).

  (** heavy_light_decomp.rs:122-124  get *)
  Definition hld_get (x : hld) (u : nat) : res (hld * S) :=
    p ← vget (h_pos (hd_tree x)) u;
    y ← lt_get idm mapping comp (hd_data x) p;
    Ok (Hld y.1 (hd_tree x), y.2).

  (** heavy_light_decomp.rs:127-129  set *)
  Definition hld_set (x : hld) (u : nat) (y : S) : res hld :=
    p ← vget (h_pos (hd_tree x)) u;
    t ← lt_set op idm mapping comp (hd_data x) p y;
    Ok (Hld t (hd_tree x)).

  (** One public API call. *)
  Definition hld_step (x : hld) (o : hld_op S F) : res (hld * hld_out S) :=
    match o with
    | HApplyPath u v f => x ← apply_path x u v f; Ok (x, HUnit)
    | HPathProd u v => '(x, y) ← path_prod x u v; Ok (x, HVal y)
    | HApplySubtree u f => x ← apply_subtree x u f; Ok (x, HUnit)
    | HSubtreeProd u => '(x, y) ← subtree_prod x u; Ok (x, HVal y)
    | HGet u => '(x, y) ← hld_get x u; Ok (x, HVal y)
    | HSet u y => x ← hld_set x u y; Ok (x, HUnit)
    | HData o => '(t, y) ← lt_step e op idm mapping comp (hd_data x) o; Ok (Hld t (hd_tree x), HDataOut y)
    end.
End Hld.
Arguments hld : clear implicits.
Arguments Hld {S F}.
