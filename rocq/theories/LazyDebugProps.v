(** Debug of src/data_structure/lazy_segtree.rs: what the printed tree means (C69). *)
From Verif Require Import Prelude UtilModel UtilProof ArraySpec SegtreeModel SegtreeProof LazySpec LazyModel LazyProps LazyChkTop LazyProof LazyTop.

Section Debug.
  Context {S F : Type} (e : S) (op : S -> S -> S) (idm : F) (mapping : F -> S -> S) (comp : F -> F -> F).
  (** the text of a value and of a map under `{:?}`, as bytes *)
  Context (showS : S -> list Z) (showF : F -> list Z).

  (** lazy_segtree.rs:289-304  Debug::fmt; tab = 9, newline = 10, brackets = 91, 93.  The formatter never fails. *)
  Definition lt_debug (t : lazytree S F) : res (list Z) :=
    out ← rfor (range 0 (lt_log t)) (fun i out =>
      out ← rfor (range 0 (2 ^ i)) (fun j out =>
        x ← vget (lt_d t) (2 ^ i + j);
        f ← vget (lt_lz t) (2 ^ i + j);
        Ok (out ++ showS x ++ [91] ++ showF f ++ [93; 9])%Z) out;
      Ok (out ++ [10])%Z) [];
    rfor (range 0 (lt_size t)) (fun i out =>
      x ← vget (lt_d t) (lt_size t + i);
      Ok (out ++ showS x ++ [9])%Z) out.

  (** ** Reading the printed tree *)

  (** The text of rows of cells (value and pending map) and of a last row of values. *)
  Definition tree_text (rows : list (list (S * F))) (leaves : list S) : list Z :=
    (flat_map (fun row => flat_map (fun c => showS c.1 ++ [91] ++ showF c.2 ++ [93; 9]) row ++ [10]) rows ++
     flat_map (fun x => showS x ++ [9]) leaves)%Z.

  (** The value [x] shown in row [i], cell [j], after the maps shown above it: in row i-1 at j/2, in row i-2 at j/4, ... *)
  Fixpoint seen (rows : list (list (S * F))) (i j : nat) (x : S) : S :=
    match i with
    | O => x
    | Datatypes.S i => seen rows i (j / 2) (match rows !! i ≫= (.!! (j / 2)) with Some c => mapping c.2 x | None => x end)
    end.

  Context (L : monoid_laws e op) (ML : map_laws op idm mapping comp).

  Lemma rfor_text {A} (xs : list A) (txt : A -> list Z) (body : A -> list Z -> res (list Z)) out :
    (forall x out, x ∈ xs -> body x out = Ok (out ++ txt x)) -> rfor xs body out = Ok (out ++ flat_map txt xs).
  Proof.
    revert out. induction xs as [|x xs IH]; intros out H; cbn [rfor flat_map]; [rewrite app_nil_r; reflexivity|].
    rewrite H by left. cbn [mbind res_bind]. rewrite IH by (intros y o Hy; apply H; right; exact Hy). rewrite app_assoc. reflexivity.
  Qed.

  Section At.
    Context (log : nat) (s : tree S F) (a : list S).
    Context (HR : R e op idm mapping log s (arr e log a) all none).
    Local Notation size := (2 ^ log).
    Local Notation D := (D e s).
    Local Notation Lz := (Lz idm s).
    Local Notation val := (val e idm mapping s).

    Definition rows_of : list (list (S * F)) :=
      map (fun i => map (fun j => (D (2 ^ i + j), Lz (2 ^ i + j))) (seq 0 (2 ^ i))) (seq 0 log).
    Definition leaves_of : list S := map (fun j => D (size + j)) (seq 0 size).

    Lemma rows_row i : i < log -> rows_of !! i = Some (map (fun j => (D (2 ^ i + j), Lz (2 ^ i + j))) (seq 0 (2 ^ i))).
    Proof. intros H. unfold rows_of. rewrite list_lookup_fmap, lookup_seq_lt by exact H. reflexivity. Qed.
    Lemma rows_cell i j : i < log -> j < 2 ^ i -> rows_of !! i ≫= (.!! j) = Some (D (2 ^ i + j), Lz (2 ^ i + j)).
    Proof. intros Hi Hj. rewrite rows_row by exact Hi. cbn. rewrite list_lookup_fmap, lookup_seq_lt by exact Hj. reflexivity. Qed.

    Lemma seen_up i : forall j l r, i <= log -> j < 2 ^ i -> l < r ->
      (forall p, l <= p < r -> p / 2 ^ (log - i) = 2 ^ i + j) ->
      seen rows_of i j (Pr e op (val (log - i)) l r) = Pr e op (val log) l r.
    Proof.
      induction i as [|i IH]; intros j l r Hi Hj Hlr Hp; cbn [seen].
      - rewrite Nat.sub_0_r. reflexivity.
      - rewrite Nat.pow_succ_r' in Hj. assert (Hj2 : j / 2 < 2 ^ i) by (apply Nat.div_lt_upper_bound; lia).
        rewrite rows_cell by lia. cbn [snd]. rewrite (Pr_map e op idm mapping comp L ML) by exact Hlr.
        assert (Hq : forall p, l <= p < r -> p / 2 ^ (log - i) = 2 ^ i + j / 2).
        { intros p Hpp. specialize (Hp p Hpp). replace (log - i) with (Datatypes.S (log - Datatypes.S i)) by lia.
          rewrite (div_up (log - Datatypes.S i)) by lia. rewrite Hp. replace (_ - _) with 1 by lia.
          rewrite Nat.pow_1_r, Nat.pow_succ_r', Nat.mul_comm, Nat.div_add_l by lia. reflexivity. }
        rewrite <- (IH (j / 2) l r) by (lia || exact Hq). f_equal. apply Pr_ext. intros p Hpp.
        replace (log - i) with (Datatypes.S (log - Datatypes.S i)) in * by lia. cbn [LazyProof.val]. rewrite (Hq p Hpp). reflexivity.
    Qed.

    Lemma seen_cell i j : i <= log -> j < 2 ^ i ->
      seen rows_of i j (D (2 ^ i + j)) = mprod e op (slice a (j * 2 ^ (log - i)) ((j + 1) * 2 ^ (log - i))).
    Proof.
      intros Hi Hj. set (h := log - i).
      assert (Hn : node log h (2 ^ i + j)).
      { apply node_range. replace (log - h) with i by (unfold h; lia). unfold h. lia. }
      pose proof (pow2_pos h).
      rewrite (R_good _ _ _ _ _ _ _ _ _ HR h _ Hn I). unfold h at 1. rewrite seen_up; [|exact Hi|exact Hj|nia|].
      2:{ intros p Hp. apply under in Hp. exact Hp. }
      replace ((2 ^ i + j) * 2 ^ h) with (2 ^ log + j * 2 ^ h).
      2:{ rewrite (size_split log i) by exact Hi. fold h. lia. }
      replace ((2 ^ i + j + 1) * 2 ^ h) with (2 ^ log + (j + 1) * 2 ^ h).
      2:{ rewrite (size_split log i) by exact Hi. fold h. lia. }
      rewrite <- (Pr_arr e op L log) by nia. apply Pr_ext. intros p Hp. apply (R_val _ _ _ _ _ _ _ _ _ HR).
      pose proof (node_hi _ _ _ Hn). split; [lia|]. unfold h in *. rewrite (size_split log i) in * by exact Hi. nia.
    Qed.
  End At.

  Lemma debug_ok t a : LInv e op idm mapping t a ->
    lt_debug t = Ok (tree_text (rows_of (lt_log t) (lt_d t, lt_lz t)) (leaves_of (lt_log t) (lt_d t, lt_lz t))).
  Proof.
    intros I. pose proof (li_R e op idm mapping t a I) as HR. pose proof (li_size e op idm mapping t a I) as Hs. unfold lt_debug, tree_text.
    erewrite (rfor_text (range 0 (lt_log t)) (fun i => flat_map (fun j => showS (D e (lt_d t, lt_lz t) (2 ^ i + j)) ++ [91] ++ showF (Lz idm (lt_d t, lt_lz t) (2 ^ i + j)) ++ [93; 9]) (seq 0 (2 ^ i)) ++ [10])%Z).
    2:{ intros i out Hi. unfold range in *. rewrite Nat.sub_0_r in *. apply elem_of_seq in Hi.
        assert (2 * 2 ^ i <= 2 ^ lt_log t) by (rewrite <- Nat.pow_succ_r'; apply Nat.pow_le_mono_r; lia).
        erewrite rfor_text.
        2:{ intros j o Hj. apply elem_of_seq in Hj.
            pose proof (D_get _ _ _ _ _ _ _ _ _ (2 ^ i + j) HR ltac:(lia)) as E1. pose proof (Lz_get _ _ _ _ _ _ _ _ _ (2 ^ i + j) HR ltac:(lia)) as E2.
            cbn [fst snd] in E1, E2. rewrite E1. cbn [mbind res_bind]. rewrite E2. cbn [mbind res_bind]. reflexivity. }
        cbn [mbind res_bind]. rewrite <- app_assoc. reflexivity. }
    cbn [mbind res_bind app].
    erewrite (rfor_text (range 0 (lt_size t)) (fun j => showS (D e (lt_d t, lt_lz t) (lt_size t + j)) ++ [9])%Z).
    2:{ intros j o Hj. unfold range in *. rewrite Nat.sub_0_r in *. apply elem_of_seq in Hj.
        pose proof (D_get _ _ _ _ _ _ _ _ _ (lt_size t + j) HR ltac:(lia)) as E1. cbn [fst snd] in E1. rewrite E1. reflexivity. }
    unfold range. rewrite !Nat.sub_0_r. f_equal. f_equal.
    - unfold rows_of. rewrite !flat_map_concat_map, map_map. f_equal. apply map_ext. intros i.
      rewrite !flat_map_concat_map, map_map. reflexivity.
    - unfold leaves_of. rewrite !flat_map_concat_map, map_map, Hs. reflexivity.
  Qed.

  Lemma run_moves ops : forall t a t' outs, LInv e op idm mapping t a -> run (lt_step e op idm mapping comp) t ops = Ok (t', outs) ->
    exists a' outs', run (lz_moves e op mapping) a ops = Ok (a', outs') /\ LInv e op idm mapping t' a'.
  Proof.
    induction ops as [|o ops IH]; intros t a t' outs I E; cbn [run] in *.
    - injection E as <- <-. eauto.
    - pose proof (step_allowed e op idm mapping comp L ML t a I o) as H.
      apply rbind_ok_inv in E as ([t1 o1] & E1 & E). rewrite E1 in H. destruct H as (a1 & H & I1).
      apply rbind_ok_inv in E as ([t2 o2] & E2 & E). injection E as <- <-.
      destruct (IH t1 a1 _ _ I1 E2) as (a' & outs' & Er & I').
      assert (exists o', lz_moves e op mapping a o = Ok (a1, o')) as (o' & Em).
      { unfold lz_moves. destruct o; cbn [is_search lz_allowed] in *; try (exists o1; symmetry; exact H).
        - destruct (_ && _); [|discriminate]. destruct H as (i0 & Hr & _). injection Hr as -> _. eauto.
        - destruct (_ && _); [|discriminate]. destruct H as (i0 & Hr & _). injection Hr as -> _. eauto. }
      rewrite Em. cbn [mbind res_bind]. rewrite Er. cbn [mbind res_bind]. eauto.
  Qed.
End Debug.

(** After any history the tree prints, without a panic, as rows of cells and a last row of values.  Row [i] has [2^i] cells.  The
    value shown in a cell, after the pending maps shown above it from the nearest to the root, is the product of the part of the
    array below that cell; in the last row it is the element itself (beyond the array: the unit).  So the whole array, with
    everything still pending, can be read off the text; the cell in the first row shows the product of all. *)
Theorem C69_debug : forall {S F : Type} (e : S) (op : S -> S -> S) (idm : F) (mapping : F -> S -> S) (comp : F -> F -> F),
  monoid_laws e op -> map_laws op idm mapping comp ->
  forall (showS : S -> list Z) (showF : F -> list Z) (v : list S) (ops : list (lz_op S F)) t outs, (Z.of_nat (length v) < 2 ^ 32)%Z ->
  (t ← lt_from e op idm v; run (lt_step e op idm mapping comp) t ops) = Ok (t, outs) ->
  exists a outs' rows leaves,
    run (lz_moves e op mapping) v ops = Ok (a, outs') /\
    lt_debug showS showF t = Ok (tree_text showS showF rows leaves) /\
    length leaves = 2 ^ length rows /\ length a <= length leaves /\
    (forall i row, rows !! i = Some row -> length row = 2 ^ i) /\
    (forall i row j x f, rows !! i = Some row -> row !! j = Some (x, f) ->
       seen mapping rows i j x = mprod e op (slice a (j * 2 ^ (length rows - i)) ((j + 1) * 2 ^ (length rows - i)))) /\
    (forall j x, leaves !! j = Some x -> seen mapping rows (length rows) j x = default e (a !! j)).
Proof.
  intros S F e op idm mapping comp L ML showS showF v ops t outs Hv E.
  destruct (from_inv e op idm mapping comp L ML v Hv) as (t0 & E0 & I0). rewrite E0 in E. cbn [mbind res_bind] in E.
  destruct (run_moves e op idm mapping comp L ML ops t0 v t outs I0 E) as (a & outs' & Er & I).
  exists a, outs', (rows_of e idm (lt_log t) (lt_d t, lt_lz t)), (leaves_of e (lt_log t) (lt_d t, lt_lz t)).
  assert (HL : length (rows_of e idm (lt_log t) (lt_d t, lt_lz t)) = lt_log t) by (unfold rows_of; rewrite map_length, seq_length; reflexivity).
  assert (HL2 : length (leaves_of e (lt_log t) (lt_d t, lt_lz t)) = 2 ^ lt_log t) by (unfold leaves_of; rewrite map_length, seq_length; reflexivity).
  rewrite HL, HL2. split; [exact Er|]. split; [apply (debug_ok e op idm mapping showS showF t a I)|].
  split; [reflexivity|]. split; [pose proof (li_le e op idm mapping t a I); pose proof (li_n e op idm mapping t a I); pose proof (li_size e op idm mapping t a I); lia|].
  assert (Hrow : forall i row, rows_of e idm (lt_log t) (lt_d t, lt_lz t) !! i = Some row -> i < lt_log t).
  { intros i row Hi. apply lookup_lt_Some in Hi. rewrite HL in Hi. exact Hi. }
  split; [|split].
  - intros i row Hi. pose proof (Hrow i row Hi). rewrite rows_row in Hi by assumption. injection Hi as <-.
    rewrite map_length, seq_length. reflexivity.
  - intros i row j x f Hi Hj. pose proof (Hrow i row Hi) as Hlt. rewrite rows_row in Hi by exact Hlt. injection Hi as <-.
    pose proof (lookup_lt_Some _ _ _ Hj) as Hj'. rewrite map_length, seq_length in Hj'.
    rewrite list_lookup_fmap, lookup_seq_lt in Hj by exact Hj'. injection Hj as <- <-.
    apply (seen_cell e op idm mapping comp L ML (lt_log t) _ a (li_R e op idm mapping t a I)); [lia|exact Hj'].
  - intros j x Hj. pose proof (lookup_lt_Some _ _ _ Hj) as Hj'. rewrite HL2 in Hj'.
    unfold leaves_of in Hj. rewrite list_lookup_fmap, lookup_seq_lt in Hj by exact Hj'. injection Hj as <-.
    rewrite (seen_cell e op idm mapping comp L ML (lt_log t) _ a (li_R e op idm mapping t a I)) by (lia || exact Hj').
    rewrite Nat.sub_diag, Nat.pow_0_r, !Nat.mul_1_r. rewrite <- (Pr_arr e op L (lt_log t)) by lia.
    replace (2 ^ lt_log t + (j + 1)) with (2 ^ lt_log t + j + 1) by lia. rewrite (Pr_one e op L). unfold arr. f_equal. f_equal. lia.
Qed.
Print Assumptions C69_debug.

(** Sums with counts, maps that add; the text has one byte per number.  The map 5 still waits at the left child of the root. *)
Example C69_nonvacuous :
  let op := fun x y : Z * Z => (x.1 + y.1, x.2 + y.2)%Z in
  let mapping := fun (f : Z) (x : Z * Z) => (x.1 + f * x.2, x.2)%Z in
  match t ← lt_from (0, 0)%Z op 0%Z [(1, 1); (2, 1); (3, 1)]%Z; run (lt_step (0, 0)%Z op 0%Z mapping Z.add) t [LzApplyRange 0 2 5%Z] with
  | Ok (t, _) => lt_debug (fun x => [x.1]) (fun f => [f]) t =
      Ok [16; 91; 0; 93; 9; 10; 13; 91; 5; 93; 9; 3; 91; 0; 93; 9; 10; 1; 9; 2; 9; 3; 9; 0; 9]%Z /\
      seen mapping [[((16, 3), 0)]; [((13, 2), 5); ((3, 1), 0)]]%Z 2 1 (2, 1)%Z = (7, 1)%Z
  | _ => False
  end.
Proof. vm_compute. split; reflexivity. Qed.
