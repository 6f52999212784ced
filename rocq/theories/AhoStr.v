(** Aho-Corasick: facts about strings, independent of the automaton. *)
From Verif Require Import Prelude AhoSpec.

(** *** Suffixes *)
Lemma suffix_cases (c : nat) t s : s `suffix_of` c :: t -> s = c :: t \/ s `suffix_of` t.
Proof. destruct s as [|a s]; [right; exists t; rewrite app_nil_r; reflexivity|apply suffix_cons_inv]. Qed.
Lemma elem_suffixes t s : s ∈ suffixes t <-> s `suffix_of` t.
Proof.
  induction t as [|c t IH]; cbn; rewrite ?elem_of_cons.
  - rewrite elem_of_nil. split; [intros [->|[]]; reflexivity|]. intros H. left. apply suffix_nil_inv in H. exact H.
  - rewrite IH. split; [intros [->|H]; [reflexivity|apply suffix_cons_r; exact H]|]. intros H. apply suffix_cases in H as [->|H]; auto.
Qed.

Section T.
  (** T holds of the strings of the trie: prefix-closed, with the empty string. *)
  Context (T : list nat -> Prop) (Tdec : forall s, Decision (T s)) (T_nil : T []) (T_pre : forall s c, T (s ++ [c]) -> T s).

  (** The longest suffix in T. *)
  Fixpoint lsuf (s : list nat) : list nat := if decide (T s) then s else match s with [] => [] | _ :: t => lsuf t end.
  (** The longest proper suffix in T. *)
  Definition lps (s : list nat) : list nat := match s with [] => [] | _ :: t => lsuf t end.

  Lemma lsuf_in s : T s -> lsuf s = s.
  Proof. intros H. destruct s; cbn [lsuf]; rewrite decide_True by exact H; reflexivity. Qed.
  Lemma lsuf_cons c s : ~ T (c :: s) -> lsuf (c :: s) = lsuf s.
  Proof. intros H. cbn [lsuf]. rewrite decide_False by exact H. reflexivity. Qed.
  Lemma lsuf_T s : T (lsuf s).
  Proof. induction s as [|c s IH]; cbn [lsuf]; destruct (decide _); auto. Qed.
  Lemma lps_T s : T (lps s).
  Proof. destruct s; cbn; [exact T_nil|apply lsuf_T]. Qed.
  Lemma lsuf_suffix s : lsuf s `suffix_of` s.
  Proof. induction s as [|c s IH]; cbn [lsuf]; destruct (decide _); try reflexivity. apply suffix_cons_r. exact IH. Qed.
  Lemma lsuf_max s t : t `suffix_of` s -> T t -> t `suffix_of` lsuf s.
  Proof.
    induction s as [|c s IH]; cbn [lsuf]; intros H HT.
    - apply suffix_nil_inv in H as ->. destruct (decide _); reflexivity.
    - destruct (decide (T (c :: s))) as [Hc|Hc]; [exact H|]. apply suffix_cases in H as [->|H]; [contradiction|]. apply IH; auto.
  Qed.
  Lemma lsuf_length s : length (lsuf s) <= length s.
  Proof. apply suffix_length, lsuf_suffix. Qed.
  Lemma lps_length c s : length (lps (c :: s)) <= length s.
  Proof. apply lsuf_length. Qed.
  Lemma lsuf_snoc s c : lsuf (s ++ [c]) = lsuf (lsuf s ++ [c]).
  Proof.
    induction s as [|a s IH].
    - rewrite (lsuf_in []) by exact T_nil. reflexivity.
    - destruct (decide (T (a :: s))) as [H|H]; [rewrite (lsuf_in (a :: s)) by exact H; reflexivity|]. rewrite (lsuf_cons a s) by exact H. cbn [app].
      rewrite lsuf_cons; [exact IH|]. intros H'. apply H, (T_pre _ c). exact H'.
  Qed.
  (** The transitions of the automaton. *)
  Lemma go_fail a s c : ~ T ((a :: s) ++ [c]) -> lsuf ((a :: s) ++ [c]) = lsuf (lps (a :: s) ++ [c]).
  Proof. intros H. cbn [app lps] in *. rewrite lsuf_cons by exact H. apply lsuf_snoc. Qed.
  Lemma lps_snoc a s c : lps ((a :: s) ++ [c]) = lsuf (lps (a :: s) ++ [c]).
  Proof. cbn [app lps]. apply lsuf_snoc. Qed.
  Lemma lps_single c : lps [c] = [].
  Proof. cbn [lps]. apply lsuf_in, T_nil. Qed.

  (** *** Strings with an index *)
  Context (E : list nat -> option nat) (ET : forall s k, E s = Some k -> T s).
  (** The longest suffix with an index. *)
  Fixpoint fsuf (s : list nat) : option (list nat) := match E s with Some _ => Some s | None => match s with [] => None | _ :: t => fsuf t end end.
  Definition outp (s : list nat) : option (list nat) := match s with [] => None | _ :: t => fsuf t end.
  Lemma fsuf_unfold s : fsuf s = match E s with Some _ => Some s | None => outp s end.
  Proof. destruct s; reflexivity. Qed.
  Lemma fsuf_lsuf s : fsuf s = fsuf (lsuf s).
  Proof.
    induction s as [|c s IH].
    - rewrite lsuf_in by exact T_nil. reflexivity.
    - destruct (decide (T (c :: s))) as [H|H]; [rewrite lsuf_in by exact H; reflexivity|]. rewrite lsuf_cons by exact H. cbn [fsuf].
      destruct (E (c :: s)) as [k|] eqn:Ek; [|exact IH]. exfalso. eapply H, ET, Ek.
  Qed.
  Lemma outp_lps c s : outp (c :: s) = fsuf (lps (c :: s)).
  Proof. cbn [outp lps]. apply fsuf_lsuf. Qed.
  Lemma fsuf_Some s t : fsuf s = Some t -> t `suffix_of` s /\ exists k, E t = Some k.
  Proof.
    induction s as [|c s IH]; rewrite fsuf_unfold; cbn [outp].
    - destruct (E []) eqn:Ek; [intros [= <-]; split; [reflexivity|eauto]|discriminate].
    - destruct (E (c :: s)) eqn:Ek; [intros [= <-]; split; [reflexivity|eauto]|]. intros H. destruct (IH H). split; [apply suffix_cons_r|]; auto.
  Qed.
  Lemma outp_length s t : outp s = Some t -> length t < length s.
  Proof. destruct s as [|c s]; cbn; [discriminate|]. intros H. apply fsuf_Some in H as [H _]. apply suffix_length in H. lia. Qed.

  (** The indices of the suffixes, and of the proper suffixes. *)
  Definition allE (s : list nat) : list nat := omap E (suffixes s).
  Definition allP (s : list nat) : list nat := match s with [] => [] | _ :: t => allE t end.
  Lemma allE_unfold s : allE s = match E s with Some k => [k] | None => [] end ++ allP s.
  Proof. unfold allE, allP. destruct s; cbn; destruct (E _); reflexivity. Qed.
  Lemma allE_lsuf s : allE s = allE (lsuf s).
  Proof.
    induction s as [|c s IH].
    - rewrite lsuf_in by exact T_nil. reflexivity.
    - destruct (decide (T (c :: s))) as [H|H]; [rewrite lsuf_in by exact H; reflexivity|]. rewrite lsuf_cons by exact H. rewrite allE_unfold.
      destruct (E (c :: s)) as [k|] eqn:Ek; [exfalso; eapply H, ET, Ek|exact IH].
  Qed.
  Lemma allP_outp s : allP s = match outp s with Some t => match E t with Some k => k :: allP t | None => [] end | None => [] end.
  Proof.
    destruct s as [|c s]; cbn [allP outp]; [reflexivity|]. clear c. induction s as [|c s IH]; rewrite allE_unfold, fsuf_unfold.
    - destruct (E []) eqn:Ek; [rewrite Ek|]; reflexivity.
    - destruct (E (c :: s)) eqn:Ek; [rewrite Ek; reflexivity|]. cbn [app]. exact IH.
  Qed.
End T.
