(** The functions whose behaviour depends on the build profile, as compiled by `cargo build --release`: debug assertions
    are absent and integer arithmetic wraps.  Everywhere else the models of the dev profile apply: a call that ends
    without overflow and without a failed debug assertion does the same in both profiles. *)
From Verif Require Import Prelude IntModel IMathModel ModIntModel UnionFindModel.
Open Scope Z_scope.

(** modint.rs:169-184  StaticModInt::inv; the debug_assert! of lines 174-178 is not compiled, `M::VALUE - 2` wraps *)
Definition static_inv_release (m : Z) (hint : bool) (a : Z) : res Z :=
  if hint then
    if a =? 0 then Panic
    else mi_pow (static_mul m) a (wrap u32 (m - 2))
  else inv_non_prime m a.
Definition static_ctx_release (m : Z) (hint : bool) : modctx := ModCtx m (static_mul m) (static_inv_release m hint).

(** union_find.rs:31-44  join; `self.sz[y] += self.sz[x]` wraps *)
Definition uf_join_release (u : uf) (x y : nat) : res (uf * bool) :=
  rassert (x <? uf_n u)%nat ;;
  rassert (y <? uf_n u)%nat ;;
  '(u, fx) ← uf_find u x;
  '(u, fy) ← uf_find u y;
  if (fx =? fy)%nat then Ok (u, false)
  else
    sx ← vget (uf_sz u) x;
    sy ← vget (uf_sz u) y;
    let '(fx, fy) := if sy <? sx then (fy, fx) else (fx, fy) in
    fa ← vset (uf_fa u) x y;
    sz ← vset (uf_sz u) y (wrap usize (sy + sx));
    Ok (Uf (uf_n u) fa sz, true).

(** The call interface of UnionFindModel.v with the join above. *)
Definition uf_step_release (u : uf) (o : uf_op) : res (uf * uf_out) :=
  match o with
  | UfJoin x y => '(u, b) ← uf_join_release u x y; Ok (u, UfBool b)
  | _ => uf_step u o
  end.

Close Scope Z_scope.
