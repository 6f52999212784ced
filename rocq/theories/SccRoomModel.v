(** The stack of scc (tarjan.rs) with room for k vertices only: pushing one more panics.
    The functions of SccModel.v with this stack; not code of /repo, which has no such limit. *)
From Verif Require Import Prelude IntModel SccModel.
Open Scope Z_scope.

(** tarjan.rs:22-26  entering u *)
Definition tj_enter_room (k : nat) (u : nat) (st : tj) : res tj :=
  ord ← vset (tj_ord st) u (tj_pos st);
  low ← vset (tj_low st) u (tj_pos st);
  pos ← iadd i32 (tj_pos st) 1;
  rassert (length (tj_stk st) <? k)%nat ;;
  let stk := u :: tj_stk st in
  ons ← vset (tj_ons st) u true;
  Ok (TJ pos ons low ord stk (tj_comp st)).

(** tarjan.rs:21-46  dfs *)
Fixpoint tdfs_room (k : nat) (fuel : nat) (g : list (list nat)) (u : nat) (st : tj) : res tj :=
  match fuel with
  | O => Diverge
  | S fuel =>
      st ← tj_enter_room k u st;
      es ← vget g u;
      st ← rfor es (edge_body (tdfs_room k fuel g) u) st;
      tj_leave u st
  end.

(** tarjan.rs:52-68  scc *)
Definition scc_room (k : nat) (g : list (list nat)) : res (nat * list nat) :=
  let n := length g in
  st ← rfor (range 0 n) (fun i st =>
         o ← vget (tj_ord st) i;
         if o =? -1 then tdfs_room k (S n) g i st else Ok st) (tj_new n);
  let cnt := length (tj_comp st) in
  color ← rfor (zip (range 0 cnt) (tj_comp st)) (fun ic color =>
         rfor ic.2 (fun x color => vset color x ic.1) color) (replicate n 0%nat);
  Ok (cnt, color).
Close Scope Z_scope.
