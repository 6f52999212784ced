(** Weighted lengths of paths that meet at a vertex. *)
From Verif Require Import Prelude ArraySpec LazySpec LazyProof TreeSpec TreeProof HldSpec TreeAgreeProof FieldSpec.

Lemma wlen_cons2 c u v l : wlen c (u :: v :: l) = c u v + wlen c (v :: l).
Proof. reflexivity. Qed.
Lemma wlen_app c l x l' : wlen c (l ++ x :: l') = wlen c (l ++ [x]) + wlen c (x :: l').
Proof.
  induction l as [|u l IH]; [reflexivity|]. destruct l as [|v l]; [cbn [app]; rewrite !wlen_cons2; cbn [wlen]; lia|].
  cbn [app] in *. rewrite !wlen_cons2, IH. lia.
Qed.
Lemma wlen_rev c l : (forall u v, c u v = c v u) -> wlen c (rev l) = wlen c l.
Proof.
  intros C. induction l as [|u l IH]; [reflexivity|]. destruct l as [|v l]; [reflexivity|]. cbn [rev] in *. rewrite <- app_assoc. cbn [app].
  rewrite wlen_app, IH, !wlen_cons2. cbn [wlen]. rewrite (C v u). lia.
Qed.

Lemma path_join g u x v p q d1 d2 : is_tree g -> is_path g u x p -> is_path g x v q -> is_dist g u x d1 -> is_dist g x v d2 -> is_dist g u v (d1 + d2) ->
  is_path g u v (p ++ tail q).
Proof.
  intros T P Q D1 D2 D. pose proof (path_length _ _ _ _ _ T P D1) as L1. pose proof (path_length _ _ _ _ _ T Q D2) as L2.
  apply (short_path g u v _ (d1 + d2)); [apply (walk_app g u x v p q (proj1 P) (proj1 Q))| |exact D].
  rewrite app_length. destruct q as [|y q]; [discriminate|]. cbn [tail length] in *. lia.
Qed.
Lemma wlen_join c g u x v p q : walk g u x p -> walk g x v q -> wlen c (p ++ tail q) = wlen c p + wlen c q.
Proof.
  intros W1 W2. apply walk_last, last_Some in W1 as [p' ->]. destruct (walk_head_eq g x v q W2) as [q' ->]. cbn [tail]. rewrite <- app_assoc. cbn [app]. apply wlen_app.
Qed.

Lemma path_rev g u v p : is_tree g -> is_path g u v p -> is_path g v u (rev p).
Proof.
  intros T [W N]. split; [|rewrite <- (Permutation_rev p); exact N]. destruct p as [|y p]; [inversion W|].
  assert (forall u v l, walk g u v l -> walk g v u (rev l)) as R; [|apply R; exact W]. clear -T. induction 1 as [u|u w v l He Hw IH]; [constructor|].
  cbn [rev]. assert (forall a b l, walk g a b l -> edge g b u -> walk g a u (l ++ [u])) as Sn.
  { induction 1 as [a|a b' c l' Hab Hbc IHs]; intros E; [cbn; econstructor; [exact E|constructor]|]. cbn. econstructor; [exact Hab|]. apply IHs. exact E. }
  apply (Sn _ _ _ IH). apply (tree_sym _ T). exact He.
Qed.
Lemma path_wlen c g u x v p q r d1 d2 : is_tree g -> is_path g u x p -> is_path g x v q -> is_path g u v r -> is_dist g u x d1 -> is_dist g x v d2 -> is_dist g u v (d1 + d2) ->
  wlen c r = wlen c p + wlen c q.
Proof.
  intros T P Q Rr D1 D2 D. rewrite <- (wlen_join c g u x v p q (proj1 P) (proj1 Q)). f_equal. destruct (path_join g u x v p q d1 d2 T P Q D1 D2 D) as [W N].
  apply (tree_unique _ T u v); try apply Rr; assumption.
Qed.

(** Calls on a plain array keep its length. *)
Lemma allowed_length {S F} (e : S) op (mapping : F -> S -> S) a o a' out : lz_allowed e op mapping a o (Ok (a', out)) -> length a' = length a.
Proof.
  destruct o; cbn [lz_allowed lz_spec_step]; intros H;
    repeat match type of H with context [if ?b then _ else _] => destruct b | context [match ?b with Some _ => _ | None => _ end] => destruct b end;
    try discriminate; try (destruct H as (? & H & _)); injection H as -> _; rewrite ?insert_length; try reflexivity. unfold map_range. apply imap_length.
Qed.
