(** Client code: sums along the paths of a rooted tree, with a FenwickTree over the fields tin and tout of a BinaryLifting.  Not code of
    /repo; it calls the modelled functions of binary_lifting.rs (LiftModel.v) and fenwick_tree.rs (FenwickModel.v). *)
From Verif Require Import Prelude FenwickModel LiftModel PathSumSpec.

Section PathSum.
  Context {T : Type} (zero : T) (add sub : T -> T -> T) (opp : T -> T).

  (** FenwickTree::new(n), and the values by vertex. *)
  Record summer := Summer { ps_f : fenwick T; ps_w : list T }.
  Definition ps_new (n : nat) : summer := Summer (fw_new zero n) (replicate n zero).
  (** w[v] += x; f.add(b.tin[v], x); f.add(b.tout[v], -x)  (fenwick_tree.rs:49-59; at tout[v] = n nothing is added) *)
  Definition ps_add (b : bl) (t : summer) (v : nat) (x : T) : res summer :=
    y ← vget (ps_w t) v;
    w ← vset (ps_w t) v (add y x);
    i ← vget (bl_tin b) v;
    f ← fw_add add (ps_f t) i x;
    j ← vget (bl_tout b) v;
    f ← fw_add add f j (opp x);
    Ok (Summer f w).
  (** f.pref(b.tin[u] + 1) *)
  Definition ps_root (b : bl) (t : summer) (u : nat) : res T :=
    i ← vget (bl_tin b) u;
    fw_pref zero add (ps_f t) (i + 1).
  (** let l = b.lca(u, v); root(u) + root(v) - root(l) - root(l) + w[l] *)
  Definition ps_path (b : bl) (t : summer) (u v : nat) : res T :=
    l ← bl_lca b u v;
    x ← ps_root b t u;
    y ← ps_root b t v;
    z ← ps_root b t l;
    c ← vget (ps_w t) l;
    Ok (add (sub (sub (add x y) z) z) c).
  Definition ps_step (b : bl) (t : summer) (o : ps_op T) : res (summer * option T) :=
    match o with
    | PsAdd v x => t ← ps_add b t v x; Ok (t, None)
    | PsGet v => x ← vget (ps_w t) v; Ok (t, Some x)
    | PsRoot u => x ← ps_root b t u; Ok (t, Some x)
    | PsPath u v => x ← ps_path b t u v; Ok (t, Some x)
    end.
End PathSum.
Arguments summer : clear implicits.
Arguments Summer {T}.
