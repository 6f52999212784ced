(** Model of src/graph/binary_lifting.rs *)
From Verif Require Import Prelude UtilModel.

(** binary_lifting.rs:3-9  struct BinaryLifting *)
Record bl := BL { bl_level : nat; bl_pa : list (list nat); bl_dep : list nat; bl_tin : list nat; bl_tout : list nat }.

(** pa[u][i] *)
Definition pa_get (pa : list (list nat)) (u i : nat) : res nat := row ← vget pa u; vget row i.
(** pa[u][i] = x *)
Definition pa_set (pa : list (list nat)) (u i x : nat) : res (list (list nat)) :=
  row ← vget pa u; row ← vset row i x; vset pa u row.

(** binary_lifting.rs:28-33  entering u: tin, the timer and the row of jumps.
    The usize values (timer, depths) are naturals: under from they never exceed the number of vertices; under a dfs called by the
    user they grow from the timer given and the depth stored by at most that number (C86). *)
Definition bl_enter (u p : nat) (st : bl * nat) : res (bl * nat) :=
  let '(b, timer) := st in
  tin ← vset (bl_tin b) u timer;
  let timer := timer + 1 in
  pa ← pa_set (bl_pa b) u 0 p;
  pa ← rfor (range 1 (bl_level b)) (fun i pa =>
         w ← pa_get pa u (i - 1);
         x ← pa_get pa w (i - 1);
         pa_set pa u i x) pa;
  Ok (BL (bl_level b) pa (bl_dep b) tin (bl_tout b), timer).

(** binary_lifting.rs:35-40  body of the for loop over g[u]; the recursive call is a parameter *)
Definition bl_edge (rec : nat -> nat -> bl * nat -> res (bl * nat)) (u p v : nat) (st : bl * nat) : res (bl * nat) :=
  if v =? p then Ok st else
  let '(b, timer) := st in
  du ← vget (bl_dep b) u;
  dep ← vset (bl_dep b) v (du + 1);
  rec v u (BL (bl_level b) (bl_pa b) dep (bl_tin b) (bl_tout b), timer).

(** binary_lifting.rs:27-43  dfs; recursion bounded by fuel, shown to suffice *)
Fixpoint bl_dfs (fuel : nat) (g : list (list nat)) (u p : nat) (st : bl * nat) : res (bl * nat) :=
  match fuel with
  | O => Diverge
  | S fuel =>
      st ← bl_enter u p st;
      es ← vget g u;
      st ← rfor es (bl_edge (bl_dfs fuel g) u p) st;
      let '(b, timer) := st in
      tout ← vset (bl_tout b) u timer;
      Ok (BL (bl_level b) (bl_pa b) (bl_dep b) (bl_tin b) tout, timer)
  end.

(** binary_lifting.rs:12-25  from *)
Definition bl_from (g : list (list nat)) (root : nat) : res bl :=
  let n := length g in
  l ← lg (Z.of_nat n);
  let level := Z.to_nat l + 1 in
  st ← bl_dfs (S n) g root root (BL level (replicate n (replicate level 0)) (replicate n 0) (replicate n 0) (replicate n 0), 0);
  Ok st.1.

(** binary_lifting.rs:46-48  is_ancestor; && does not evaluate tout[u] if the first test fails *)
Definition bl_is_ancestor (b : bl) (u v : nat) : res bool :=
  tv ← vget (bl_tin b) v;
  tu ← vget (bl_tin b) u;
  if tu <=? tv then ou ← vget (bl_tout b) u; Ok (tv <? ou) else Ok false.

(** binary_lifting.rs:50-63  lca *)
Definition bl_lca (b : bl) (u v : nat) : res nat :=
  a1 ← bl_is_ancestor b u v;
  if a1 : bool then Ok u else
  a2 ← bl_is_ancestor b v u;
  if a2 : bool then Ok v else
  u ← rfor (rev (range 0 (bl_level b))) (fun i u =>
        x ← pa_get (bl_pa b) u i;
        a ← bl_is_ancestor b x v;
        if a : bool then Ok u else Ok x) u;
  pa_get (bl_pa b) u 0.

(** binary_lifting.rs:65-68  dis *)
Definition bl_dis (b : bl) (u v : nat) : res nat :=
  l ← bl_lca b u v;
  du ← vget (bl_dep b) u;
  dl ← vget (bl_dep b) l;
  x ← nsub du dl;
  dv ← vget (bl_dep b) v;
  dl ← vget (bl_dep b) l;
  nsub (x + dv) dl.
