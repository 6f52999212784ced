(** src/graph/binary_lifting.rs and the tree part of src/graph/heavy_light_decomp.rs again, counting steps: one per call of a dfs, per entry of an
    adjacency list read, per jump filled, per cell allocated, and per turn of the loop of lca. *)
From Verif Require Import Prelude UtilModel Eff LiftModel HldModel GraphWorkModel.

(** binary_lifting.rs:28-33  entering u *)
Definition bl_enterW (u p : nat) (st : bl * nat) : eff nat (bl * nat) :=
  let '(b, timer) := st in
  tick ;;*
  tin <* elift (vset (bl_tin b) u timer) ;*
  let timer := timer + 1 in
  tick ;;*
  pa <* elift (pa_set (bl_pa b) u 0 p) ;*
  pa <* efor (range 1 (bl_level b)) (fun i pa =>
         tick ;;*
         w <* elift (pa_get pa u (i - 1)) ;*
         x <* elift (pa_get pa w (i - 1)) ;*
         elift (pa_set pa u i x)) pa ;*
  eret (BL (bl_level b) pa (bl_dep b) tin (bl_tout b), timer).
(** binary_lifting.rs:35-40  body of the for loop over g[u] *)
Definition bl_edgeW (rec : nat -> nat -> bl * nat -> eff nat (bl * nat)) (u p v : nat) (st : bl * nat) : eff nat (bl * nat) :=
  tick ;;*
  if v =? p then eret st else
  let '(b, timer) := st in
  du <* elift (vget (bl_dep b) u) ;*
  dep <* elift (vset (bl_dep b) v (du + 1)) ;*
  rec v u (BL (bl_level b) (bl_pa b) dep (bl_tin b) (bl_tout b), timer).
(** binary_lifting.rs:27-43  dfs *)
Fixpoint bl_dfsW (fuel : nat) (g : list (list nat)) (u p : nat) (st : bl * nat) : eff nat (bl * nat) :=
  match fuel with
  | O => elift Diverge
  | S fuel =>
      st <* bl_enterW u p st ;*
      es <* elift (vget g u) ;*
      st <* efor es (bl_edgeW (bl_dfsW fuel g) u p) st ;*
      let '(b, timer) := st in
      tout <* elift (vset (bl_tout b) u timer) ;*
      eret (BL (bl_level b) (bl_pa b) (bl_dep b) (bl_tin b) tout, timer)
  end.
(** binary_lifting.rs:12-25  from: n rows of level jumps and three vectors of n cells *)
Definition bl_fromW (g : list (list nat)) (root : nat) : eff nat bl :=
  let n := length g in
  l <* elift (lg (Z.of_nat n)) ;*
  let level := Z.to_nat l + 1 in
  ticks (n * level + 3 * n) ;;*
  st <* bl_dfsW (S n) g root root (BL level (replicate n (replicate level 0)) (replicate n 0) (replicate n 0) (replicate n 0), 0) ;*
  eret st.1.
(** binary_lifting.rs:50-63  lca *)
Definition bl_lcaW (b : bl) (u v : nat) : eff nat nat :=
  a1 <* elift (bl_is_ancestor b u v) ;*
  if a1 : bool then eret u else
  a2 <* elift (bl_is_ancestor b v u) ;*
  if a2 : bool then eret v else
  u <* efor (rev (range 0 (bl_level b))) (fun i u =>
        tick ;;*
        x <* elift (pa_get (bl_pa b) u i) ;*
        a <* elift (bl_is_ancestor b x v) ;*
        eret (if a : bool then u else x)) u ;*
  elift (pa_get (bl_pa b) u 0).
(** binary_lifting.rs:65-68  dis *)
Definition bl_disW (b : bl) (u v : nat) : eff nat nat :=
  l <* bl_lcaW b u v ;*
  du <* elift (vget (bl_dep b) u) ;*
  dl <* elift (vget (bl_dep b) l) ;*
  x <* elift (nsub du dl) ;*
  dv <* elift (vget (bl_dep b) v) ;*
  dl <* elift (vget (bl_dep b) l) ;*
  elift (nsub (x + dv) dl).

(** heavy_light_decomp.rs:51-61  body of the for loop of dfs1 *)
Definition dfs1_edgeW (rec : nat -> hl -> eff nat (hl * nat)) (u v : nat) (st : hl * nat * nat) : eff nat (hl * nat * nat) :=
  tick ;;*
  let '(h, size, max_size) := st in
  p <* elift (vget (h_parent h) u) ;*
  if v =? p then eret st else
  parent <* elift (vset (h_parent h) v u) ;*
  du <* elift (vget (h_dep h) u) ;*
  dep <* elift (vset (h_dep h) v (du + 1)) ;*
  x <* rec v (HL parent dep (h_heavy h) (h_head h) (h_pos h) (h_posr h)) ;*
  let '(h, child_size) := x in
  let size := size + child_size in
  if max_size <? child_size then
    heavy <* elift (vset (h_heavy h) u (Some v)) ;*
    eret (HL (h_parent h) (h_dep h) heavy (h_head h) (h_pos h) (h_posr h), size, child_size)
  else eret (h, size, max_size).
(** heavy_light_decomp.rs:49-64  dfs1 *)
Fixpoint dfs1W (fuel : nat) (g : list (list nat)) (u : nat) (h : hl) : eff nat (hl * nat) :=
  match fuel with
  | O => elift Diverge
  | S fuel =>
      tick ;;*
      es <* elift (vget g u) ;*
      st <* efor es (dfs1_edgeW (dfs1W fuel g) u) (h, 1, 0) ;*
      let '(h, size, _) := st in
      eret (h, size)
  end.
(** heavy_light_decomp.rs:75-79  body of the for loop of dfs2 *)
Definition dfs2_edgeW (rec : nat -> nat -> hl * nat -> eff nat (hl * nat)) (u v : nat) (st : hl * nat) : eff nat (hl * nat) :=
  tick ;;*
  p <* elift (vget (h_parent st.1) u) ;*
  if v =? p then eret st else
  hc <* elift (vget (h_heavy st.1) u) ;*
  if bool_decide (Some v = hc) then eret st else rec v v st.
(** heavy_light_decomp.rs:66-81  dfs2 *)
Fixpoint dfs2W (fuel : nat) (g : list (list nat)) (u head : nat) (st : hl * nat) : eff nat (hl * nat) :=
  match fuel with
  | O => elift Diverge
  | S fuel =>
      tick ;;*
      let '(h, timer) := st in
      hd <* elift (vset (h_head h) u head) ;*
      pos <* elift (vset (h_pos h) u timer) ;*
      let timer := timer + 1 in
      let h := HL (h_parent h) (h_dep h) (h_heavy h) hd pos (h_posr h) in
      hc <* elift (vget (h_heavy h) u) ;*
      st <* (match hc with Some v => dfs2W fuel g v head (h, timer) | None => eret (h, timer) end) ;*
      es <* elift (vget g u) ;*
      st <* efor es (dfs2_edgeW (dfs2W fuel g) u) st ;*
      let '(h, timer) := st in
      posr <* elift (vset (h_posr h) u timer) ;*
      eret (HL (h_parent h) (h_dep h) (h_heavy h) (h_head h) (h_pos h) posr, timer)
  end.
(** heavy_light_decomp.rs:22-35  the tree part of new: six vectors of n cells *)
Definition hl_newW (g : list (list nat)) (root : nat) : eff nat hl :=
  let n := length g in
  ticks (6 * n) ;;*
  let h := HL (replicate n 0) (replicate n 0) (replicate n None) (replicate n 0) (replicate n 0) (replicate n 0) in
  parent <* elift (vset (h_parent h) root root) ;*
  x <* dfs1W (S n) g root (HL parent (h_dep h) (h_heavy h) (h_head h) (h_pos h) (h_posr h)) ;*
  st <* dfs2W (S n) g root root (x.1, 0) ;*
  eret st.1.

(** from and the tree part of new when the stack has room for k nested calls of dfs, dfs1 and dfs2; Diverge: the stack overflows. *)
Definition bl_from_stack (k : nat) (g : list (list nat)) (root : nat) : res bl :=
  let n := length g in
  l ← lg (Z.of_nat n);
  let level := Z.to_nat l + 1 in
  st ← bl_dfs k g root root (BL level (replicate n (replicate level 0)) (replicate n 0) (replicate n 0) (replicate n 0), 0);
  Ok st.1.
Definition hl_new_stack (k : nat) (g : list (list nat)) (root : nat) : res hl :=
  let n := length g in
  let h := HL (replicate n 0) (replicate n 0) (replicate n None) (replicate n 0) (replicate n 0) (replicate n 0) in
  parent ← vset (h_parent h) root root;
  x ← dfs1 k g root (HL parent (h_dep h) (h_heavy h) (h_head h) (h_pos h) (h_posr h));
  st ← dfs2 k g root root (x.1, 0);
  Ok st.1.
