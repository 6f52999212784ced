(** The lazy segment tree and the heavy-light decomposition over functions that need not satisfy any laws, such as floating-point sums: main theorems. *)
From Coq Require Import SpecFloat.
From Verif Require Import Prelude UtilModel ArraySpec LazySpec LazyModel TreeSpec HldSpec HldModel LiftProps HldProps FreeSpec SegtreeFreeProps LawlessSpec LazyLawless HldLawless.

(** C96: with any e, op, id, mapping and composition, every history of calls of the lazy segment tree does what [lz_any] allows on the array of entries:
    no call panics or fails to return on arguments in range, and every answer is put together from exactly the right elements in their order,
    each mapped by exactly the maps applied to it since it was set, the latest outermost. *)
Theorem C96_lazy (S F : Type) (e : S) (op : S -> S -> S) (idm : F) (mapping : F -> S -> S) (comp : F -> F -> F) (v : list S) (ops : list (lz_op S F)) :
  (Z.of_nat (length v) < 2 ^ 32)%Z ->
  match (t ← lt_from e op idm v; run (lt_step e op idm mapping comp) t ops) with
  | Ok (_, outs) => exists a, allowed_run (lz_any e op idm mapping comp) (map (fun x => (x, [])) v) ops (Ok (a, outs))
  | Panic => allowed_run (lz_any e op idm mapping comp) (map (fun x => (x, [])) v) ops Panic
  | Diverge => False
  end.
Proof.
  intros Hv. destruct (good_from e op idm mapping comp v Hv) as (t & -> & G). cbn [mbind res_bind]. pose proof (good_history e op idm mapping comp ops t _ G) as H.
  destruct (run (lt_step e op idm mapping comp) t ops) as [[t' outs]| |]; [|exact H|exact H]. destruct H as (a & H & _). eauto.
Qed.
Print Assumptions C96_lazy.

(** C96: the same for HLD on every tree, with one entry per vertex. *)
Theorem C96_hld (S F : Type) (e : S) (op : S -> S -> S) (idm : F) (mapping : F -> S -> S) (comp : F -> F -> F) g root w x :
  hld_built e op idm g root w x ->
  exists y ord, x = Ok y /\ visiting_order g root ord /\ HldProps.places ord (h_pos (hd_tree y)) /\
    forall ops, match run (hld_step e op idm mapping comp) y ops with
    | Ok (_, outs) => exists w', allowed_run (hld_any e op idm mapping comp g root ord (by_pieces g root ord)) (map (fun x => (x, [])) w) ops (Ok (w', outs))
    | Panic => allowed_run (hld_any e op idm mapping comp g root ord (by_pieces g root ord)) (map (fun x => (x, [])) w) ops Panic
    | Diverge => False
    end.
Proof. apply hld_any_history. Qed.
Print Assumptions C96_hld.

(** C96: under the laws a result is the product of the mapped values; so the two theorems above give the exact answers of C04 and C30. *)
Theorem C96_lawful (S F : Type) (e : S) (op : S -> S -> S) (idm : F) (mapping : F -> S -> S) (comp : F -> F -> F) : monoid_laws e op -> map_laws op idm mapping comp ->
  forall l x, results e op idm mapping comp l x -> x = mprod e op (map (fun q => foldr mapping q.1 q.2) l).
Proof. intros L ML l x H. exact (results_lawful e op idm mapping comp l x L ML H). Qed.
Print Assumptions C96_lawful.

(** With f64 max_right can return an index past the end here as well. *)
Theorem C96_past_end : exists (v : list spec_float) (f : spec_float -> bool) t t' r,
  lt_from f64_zero f64_add f64_zero v = Ok t /\ f f64_zero = true /\
  lt_step f64_zero f64_add f64_zero (fun _ x => x) f64_add t (LzMaxRight 0 f) = Ok (t', LzIdx r) /\ length v < r.
Proof.
  exists (map f64_of [2 ^ 54; 0; 0; 0; 0; 0; 0; 0; 1; 1; 0; 0; 2]%Z), (fun s => SFleb s (f64_of (2 ^ 54))). eexists _, _, 15.
  split; [vm_compute; reflexivity|]. split; [reflexivity|]. split; [vm_compute; reflexivity|]. vm_compute. lia.
Qed.
Print Assumptions C96_past_end.

(** Sums of f64 with multiplications of ranges by f64: 2^53 + 1 + 1 rounds to 2^53 or to 2^53 + 2 depending on the bracketing.  Here the sum of the
    first three elements and, after a multiplication by two which waits in the inner nodes, that of all four. *)
Definition f64_mul (x y : spec_float) : spec_float := SFmul 53 1024 x y.
Example C96_nonvacuous :
  let v := map f64_of [2 ^ 53; 1; 1; 1]%Z in
  (t ← lt_from f64_zero f64_add (f64_of 1) v; '(_, outs) ← run (lt_step f64_zero f64_add (f64_of 1) f64_mul f64_mul) t [LzProd 0 3; LzAllProd; LzApplyRange 0 4 (f64_of 2); LzProd 0 3; LzGet 3; LzMaxRight 0 (fun s => SFleb s (f64_of (2 ^ 54)))]; Ok outs) =
  Ok [LzVal (f64_of (2 ^ 53)); LzVal (f64_of (2 ^ 53 + 2)); LzUnit; LzVal (f64_of (2 ^ 54)); LzVal (f64_of 2); LzIdx 3].
Proof. vm_compute. reflexivity. Qed.

(** A tree on 7 vertices rooted at 3, f64 values; sums along the path 1 - 0 - 2 - 4 - 5, multiplication of the subtree of 4 by two. *)
Example C96_hld_nonvacuous :
  let w := map f64_of [2 ^ 53; 1; 1; 1; 1; 1; 1]%Z in
  hld_built f64_zero f64_add (f64_of 1) ex_tree 3 w (hld_with_init f64_zero f64_add (f64_of 1) ex_tree 3 w) /\
  (t ← hld_with_init f64_zero f64_add (f64_of 1) ex_tree 3 w; '(_, outs) ← run (hld_step f64_zero f64_add (f64_of 1) f64_mul f64_mul) t [HPathProd 1 5; HApplySubtree 4 (f64_of 2); HPathProd 5 1; HGet 6; HSubtreeProd 4; HData LzAllProd]; Ok outs) =
  Ok [HVal (f64_of (2 ^ 53 + 4)); HUnit; HVal (f64_of (2 ^ 53 + 4)); HVal (f64_of 2); HVal (f64_of 6); HDataOut (LzVal (f64_of (2 ^ 53 + 10)))].
Proof.
  split; [|vm_compute; reflexivity]. split; [exact ex_tree_ok|]. split; [cbn; lia|]. split; [cbn; lia|]. left. split; reflexivity.
Qed.
