(** A client: subtree products with a Segtree indexed by the field tin of a BinaryLifting.  Not code of /repo; it calls the modelled
    functions of binary_lifting.rs:12-25 and segtree.rs (SegtreeModel.v) and reads the public fields binary_lifting.rs:7-8 tin, tout. *)
From Verif Require Import Prelude ArraySpec LiftModel SegtreeModel EulerSpec.

Section Client.
  Context {S : Type} (e : S) (op : S -> S -> S).

  (** let mut a = vec![e; n]; for v in 0..n { a[b.tin[v]] = w[v]; }  Segtree::from(a) *)
  Definition sub_from (b : bl) (w : list S) : res (segtree S) :=
    a ← rfor (range 0 (length w)) (fun v a => t ← vget (bl_tin b) v; x ← vget w v; vset a t x) (replicate (length w) e);
    st_from e op a.

  (** t.set(b.tin[v], x), t.get(b.tin[v]), t.prod(b.tin[u]..b.tout[u]) *)
  Definition sub_step (b : bl) (t : segtree S) (o : sub_op S) : res (segtree S * option S) :=
    match o with
    | SubSet v x => i ← vget (bl_tin b) v; t ← st_set op t i x; Ok (t, None)
    | SubGet v => i ← vget (bl_tin b) v; x ← st_get t i; Ok (t, Some x)
    | SubProd u => i ← vget (bl_tin b) u; j ← vget (bl_tout b) u; x ← st_prod e op t i j; Ok (t, Some x)
    end.
End Client.
