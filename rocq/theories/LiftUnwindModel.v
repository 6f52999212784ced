(** src/graph/binary_lifting.rs: dfs with panics that are caught: the code of LiftModel.v, writing to the memory (the structure and the
    caller's timer) step by step. *)
From Verif Require Import Prelude UtilModel LiftModel Unwind.

(** self.tin[u] = *timer *)
Definition put_tin (u : nat) : uw (bl * nat) unit :=
  uwrite (fun '(b, t) => tin ← vset (bl_tin b) u t; Ok (BL (bl_level b) (bl_pa b) (bl_dep b) tin (bl_tout b), t)).
(** *timer += 1 *)
Definition tick : uw (bl * nat) unit := uwrite (fun '(b, t) => Ok (b, t + 1)).
(** self.pa[u][i] = x *)
Definition put_pa (u i x : nat) : uw (bl * nat) unit :=
  uwrite (fun '(b, t) => pa ← pa_set (bl_pa b) u i x; Ok (BL (bl_level b) pa (bl_dep b) (bl_tin b) (bl_tout b), t)).
(** self.dep[v] = self.dep[u] + 1 *)
Definition put_dep (u v : nat) : uw (bl * nat) unit :=
  uwrite (fun '(b, t) => du ← vget (bl_dep b) u; dep ← vset (bl_dep b) v (du + 1); Ok (BL (bl_level b) (bl_pa b) dep (bl_tin b) (bl_tout b), t)).
(** self.tout[u] = *timer *)
Definition put_tout (u : nat) : uw (bl * nat) unit :=
  uwrite (fun '(b, t) => tout ← vset (bl_tout b) u t; Ok (BL (bl_level b) (bl_pa b) (bl_dep b) (bl_tin b) tout, t)).

(** binary_lifting.rs:28-33 *)
Definition blu_enter (u p : nat) : uw (bl * nat) unit :=
  put_tin u ;;~
  tick ;;~
  put_pa u 0 p ;;~
  level <~ uread (fun s => Ok (bl_level s.1)) ;~
  ufor (range 1 level) (fun i _ =>
    w <~ uread (fun s => pa_get (bl_pa s.1) u (i - 1)) ;~
    x <~ uread (fun s => pa_get (bl_pa s.1) w (i - 1)) ;~
    put_pa u i x) tt.
(** binary_lifting.rs:27-43  dfs *)
Fixpoint blu_dfs (fuel : nat) (g : list (list nat)) (u p : nat) : uw (bl * nat) unit :=
  match fuel with
  | O => fun _ => Diverge
  | S fuel =>
      blu_enter u p ;;~
      es <~ uread (fun _ => vget g u) ;~
      ufor es (fun v _ => if v =? p then uret tt else put_dep u v ;;~ blu_dfs fuel g v u) tt ;;~
      put_tout u
  end.
