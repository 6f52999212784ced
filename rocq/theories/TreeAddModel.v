(** Client code: additions to the vertices of a path and of a subtree of a rooted tree, with two FenwickTrees over the fields tin and tout of a
    BinaryLifting.  Not code of /repo; it calls the modelled functions of binary_lifting.rs (LiftModel.v) and fenwick_tree.rs (FenwickModel.v). *)
From Verif Require Import Prelude FenwickModel LiftModel TreeAddSpec.

Section TreeAdd.
  Context {T : Type} (zero : T) (add sub : T -> T -> T) (opp : T -> T).

  (** FenwickTree::new(n) for the paths and for the subtrees, and vec![zero; n] for the tops of the paths. *)
  Record adder := Adder { ta_f : fenwick T; ta_s : fenwick T; ta_x : list T }.
  Definition ta_new (n : nat) : adder := Adder (fw_new zero n) (fw_new zero n) (replicate n zero).
  (** let l = b.lca(u, v); f.add(b.tin[u], x); f.add(b.tin[v], x); f.add(b.tin[l], -(x + x)); top[l] += x *)
  Definition ta_path (b : bl) (t : adder) (u v : nat) (x : T) : res adder :=
    l ← bl_lca b u v;
    i ← vget (bl_tin b) u;
    f ← fw_add add (ta_f t) i x;
    i ← vget (bl_tin b) v;
    f ← fw_add add f i x;
    i ← vget (bl_tin b) l;
    f ← fw_add add f i (opp (add x x));
    y ← vget (ta_x t) l;
    top ← vset (ta_x t) l (add y x);
    Ok (Adder f (ta_s t) top).
  (** s.add(b.tin[v], x); s.add(b.tout[v], -x)  (at tout[v] = n nothing is added) *)
  Definition ta_sub (b : bl) (t : adder) (v : nat) (x : T) : res adder :=
    i ← vget (bl_tin b) v;
    s ← fw_add add (ta_s t) i x;
    j ← vget (bl_tout b) v;
    s ← fw_add add s j (opp x);
    Ok (Adder (ta_f t) s (ta_x t)).
  (** f.pref(b.tout[v]) - f.pref(b.tin[v]) + top[v] + s.pref(b.tin[v] + 1) *)
  Definition ta_get (b : bl) (t : adder) (v : nat) : res T :=
    j ← vget (bl_tout b) v;
    p ← fw_pref zero add (ta_f t) j;
    i ← vget (bl_tin b) v;
    q ← fw_pref zero add (ta_f t) i;
    e ← vget (ta_x t) v;
    r ← fw_pref zero add (ta_s t) (i + 1);
    Ok (add (add (sub p q) e) r).
  Definition ta_step (b : bl) (t : adder) (o : ta_op T) : res (adder * option T) :=
    match o with
    | TaPath u v x => t ← ta_path b t u v x; Ok (t, None)
    | TaSub v x => t ← ta_sub b t v x; Ok (t, None)
    | TaGet v => y ← ta_get b t v; Ok (t, Some y)
    end.
End TreeAdd.
Arguments adder : clear implicits.
Arguments Adder {T}.
