(** Model of src/graph/tarjan.rs *)
From Verif Require Import Prelude IntModel.
Open Scope Z_scope.

(** tarjan.rs:1-8  struct SCC; the stack is kept top first *)
Record tj := TJ { tj_pos : Z; tj_ons : list bool; tj_low : list Z; tj_ord : list Z; tj_stk : list nat; tj_comp : list (list nat) }.

(** tarjan.rs:11-20  SCC::new *)
Definition tj_new (n : nat) : tj := TJ 0 (replicate n false) (replicate n 0) (replicate n (-1)) [] [].

(** tarjan.rs:37-44  the popping loop: stack, on_stack and the component being filled *)
Fixpoint pop_comp (u : nat) (stk : list nat) (ons : list bool) (comp : list nat) : res (list nat * list bool * list nat) :=
  match stk with
  | [] => Panic
  | v :: stk =>
      ons ← vset ons v false;
      let comp := comp ++ [v] in
      if (u =? v)%nat then Ok (stk, ons, comp) else pop_comp u stk ons comp
  end.

(** tarjan.rs:28-33  body of the for loop over g[u]; the recursive call is a parameter *)
Definition edge_body (rec : nat -> tj -> res tj) (u v : nat) (st : tj) : res tj :=
  o ← vget (tj_ord st) v;
  st ← (if o =? -1 then rec v st else Ok st);
  b ← vget (tj_ons st) v;
  if b : bool then
    lu ← vget (tj_low st) u;
    lv ← vget (tj_low st) v;
    low ← vset (tj_low st) u (Z.min lu lv);
    Ok (TJ (tj_pos st) (tj_ons st) low (tj_ord st) (tj_stk st) (tj_comp st))
  else Ok st.

(** tarjan.rs:22-26  entering u *)
Definition tj_enter (u : nat) (st : tj) : res tj :=
  ord ← vset (tj_ord st) u (tj_pos st);
  low ← vset (tj_low st) u (tj_pos st);
  pos ← iadd i32 (tj_pos st) 1;
  let stk := u :: tj_stk st in
  ons ← vset (tj_ons st) u true;
  Ok (TJ pos ons low ord stk (tj_comp st)).

(** tarjan.rs:35-45  leaving u *)
Definition tj_leave (u : nat) (st : tj) : res tj :=
  lu ← vget (tj_low st) u;
  ou ← vget (tj_ord st) u;
  if lu =? ou then
    x ← pop_comp u (tj_stk st) (tj_ons st) [];
    let '(stk, ons, comp) := x in
    Ok (TJ (tj_pos st) ons (tj_low st) (tj_ord st) stk (tj_comp st ++ [comp]))
  else Ok st.

(** tarjan.rs:21-46  dfs; recursion bounded by fuel, shown to suffice *)
Fixpoint tdfs (fuel : nat) (g : list (list nat)) (u : nat) (st : tj) : res tj :=
  match fuel with
  | O => Diverge
  | S fuel =>
      st ← tj_enter u st;
      es ← vget g u;
      st ← rfor es (edge_body (tdfs fuel g) u) st;
      tj_leave u st
  end.

(** tarjan.rs:52-68  scc *)
Definition scc (g : list (list nat)) : res (nat * list nat) :=
  let n := length g in
  st ← rfor (range 0 n) (fun i st =>
         o ← vget (tj_ord st) i;
         if o =? -1 then tdfs (S n) g i st else Ok st) (tj_new n);
  let cnt := length (tj_comp st) in
  color ← rfor (zip (range 0 cnt) (tj_comp st)) (fun ic color =>
         rfor ic.2 (fun x color => vset color x ic.1) color) (replicate n 0%nat);
  Ok (cnt, color).
Close Scope Z_scope.
