(** Independent specification vocabulary for the array-like structures:
    products of slices of plain lists and histories of API calls. *)
From Verif Require Import Prelude.

(** Left-to-right product of a list in a monoid: x0 * (x1 * (... * e)). *)
Definition mprod {S} (e : S) (op : S -> S -> S) (l : list S) : S := foldr op e l.

(** a[l..r) *)
Definition slice {A} (a : list A) (l r : nat) : list A := take (r - l) (drop l a).

(** a with a[i] replaced by g a[i] for l <= i < r *)
Definition map_range {A} (g : A -> A) (l r : nat) (a : list A) : list A :=
  imap (fun i x => if (l <=? i) && (i <? r) then g x else x) a.

(** Monoid laws (src/traits/monoid.rs leaves them to the implementor). *)
Record monoid_laws {S} (e : S) (op : S -> S -> S) : Prop := {
  ml_assoc : forall x y z, op x (op y z) = op (op x y) z;
  ml_idl : forall x, op e x = x;
  ml_idr : forall x, op x e = x }.

(** A history: API calls executed in sequence, stopping at the first panic. *)
Fixpoint run {St Op Out} (step : St -> Op -> res (St * Out)) (s : St) (ops : list Op)
  : res (St * list Out) :=
  match ops with
  | [] => Ok (s, [])
  | o :: ops =>
      '(s, out) ← step s o;
      '(s, outs) ← run step s ops;
      Ok (s, out :: outs)
  end.

(** What [max_right l f] must return on the plain array [a] (n = length a):
    the product of a[l..r) satisfies f, and r is the end or one more element breaks f. *)
Definition max_right_post {S} (e : S) (op : S -> S -> S) (a : list S) (l : nat) (f : S -> bool) (r : nat) : Prop :=
  l <= r <= length a /\
  f (mprod e op (slice a l r)) = true /\
  (r < length a -> f (mprod e op (slice a l (r + 1))) = false).

(** What [min_left r f] must return. *)
Definition min_left_post {S} (e : S) (op : S -> S -> S) (a : list S) (r : nat) (f : S -> bool) (l : nat) : Prop :=
  l <= r /\
  f (mprod e op (slice a l r)) = true /\
  (0 < l -> f (mprod e op (slice a (l - 1) r)) = false).

(** f is monotone along the prefixes starting at l: once false it stays false. *)
Definition mono_from {S} (e : S) (op : S -> S -> S) (a : list S) (l : nat) (f : S -> bool) : Prop :=
  forall i j, l <= i <= j -> j <= length a ->
    f (mprod e op (slice a l j)) = true -> f (mprod e op (slice a l i)) = true.

(** f is monotone along the suffixes ending at r. *)
Definition mono_to {S} (e : S) (op : S -> S -> S) (a : list S) (r : nat) (f : S -> bool) : Prop :=
  forall i j, i <= j <= r ->
    f (mprod e op (slice a i r)) = true -> f (mprod e op (slice a j r)) = true.

(** ** Facts about slices and products *)
Section Facts.
  Context {A : Type}.
  Implicit Types (a : list A).

  Lemma slice_nil a l r : r <= l -> slice a l r = [].
  Proof. intros H. unfold slice. replace (r - l) with 0 by lia. reflexivity. Qed.

  Lemma slice_app a l m r : l <= m <= r -> slice a l m ++ slice a m r = slice a l r.
  Proof.
    intros H. unfold slice.
    rewrite <- (take_drop (m - l) (take (r - l) (drop l a))).
    rewrite take_take, Nat.min_l by lia. f_equal.
    rewrite skipn_firstn_comm, drop_drop. f_equal; [lia|f_equal;lia].
  Qed.

  Lemma slice_full a : slice a 0 (length a) = a.
  Proof. unfold slice. rewrite drop_0, Nat.sub_0_r. apply firstn_all. Qed.

  Lemma slice_single a l x : a !! l = Some x -> slice a l (l + 1) = [x].
  Proof.
    intros H. unfold slice. replace (l + 1 - l) with 1 by lia.
    rewrite (drop_S a x l) by exact H. reflexivity.
  Qed.

  Lemma slice_lookup a l r i : l + i < r -> slice a l r !! i = a !! (l + i).
  Proof. intros H. unfold slice. rewrite lookup_take by lia. apply lookup_drop. Qed.

  Lemma slice_length a l r : r <= length a -> length (slice a l r) = r - l.
  Proof. intros H. unfold slice. rewrite take_length, drop_length. lia. Qed.

  Lemma slice_shift a b off l r :
    (forall i, l <= i < r -> a !! i = b !! (off + i)) ->
    slice a l r = slice b (off + l) (off + r).
  Proof.
    intros H. apply list_eq. intros i.
    destruct (decide (l + i < r)) as [Hi|Hi].
    - rewrite !slice_lookup by lia. rewrite H by lia. f_equal. lia.
    - unfold slice. rewrite !lookup_take_ge by lia. reflexivity.
  Qed.

  Lemma slice_ext a b l r :
    (forall i, l <= i < r -> a !! i = b !! i) -> slice a l r = slice b l r.
  Proof. intros H. apply (slice_shift a b 0). intros i Hi. apply H. exact Hi. Qed.
End Facts.

Section Prod.
  Context {S : Type} (e : S) (op : S -> S -> S) (L : monoid_laws e op).
  Local Notation P := (mprod e op).

  Lemma mprod_app l1 l2 : P (l1 ++ l2) = op (P l1) (P l2).
  Proof.
    induction l1 as [|x l1 IH]; cbn.
    - symmetry. apply (ml_idl _ _ L).
    - unfold mprod in IH. rewrite IH. apply (ml_assoc _ _ L).
  Qed.

  Lemma mprod_single x : P [x] = x.
  Proof. cbn. apply (ml_idr _ _ L). Qed.

  Lemma mprod_replicate_e n : P (replicate n e) = e.
  Proof. induction n as [|n IH]; cbn; [reflexivity|]. rewrite (ml_idl _ _ L). exact IH. Qed.
End Prod.

(** Monotone predicates: the boundary index is the extreme one. *)
Lemma max_right_is_max {S} (e : S) op a l f r :
  max_right_post e op a l f r -> mono_from e op a l f ->
  forall j, l <= j <= length a -> f (mprod e op (slice a l j)) = true -> j <= r.
Proof.
  intros (Hlr & Ht & Hf) Hmono j Hj Hfj.
  destruct (decide (j <= r)) as [|Hgt]; [assumption|exfalso].
  assert (r < length a) as Hr by lia. specialize (Hf Hr).
  rewrite (Hmono (r + 1) j) in Hf; [discriminate|lia|lia|exact Hfj].
Qed.

Lemma min_left_is_min {S} (e : S) op a r f l :
  min_left_post e op a r f l -> mono_to e op a r f ->
  forall i, i <= r -> f (mprod e op (slice a i r)) = true -> l <= i.
Proof.
  intros (Hlr & Ht & Hf) Hmono i Hi Hfi.
  destruct (decide (l <= i)) as [|Hgt]; [assumption|exfalso].
  assert (0 < l) as Hl by lia. specialize (Hf Hl).
  rewrite (Hmono i (l - 1)) in Hf; [discriminate|lia|exact Hfi].
Qed.
