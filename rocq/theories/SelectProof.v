From Verif Require Import Prelude IntModel DinicModel DinicSpec DinicProof DinicProps FlowRelModel FlowRelSpec FlowRelProof SelectModel SelectSpec.
Open Scope Z_scope.

Lemma item_cut n ps X : X n = true -> X (S n) = false -> forall k, cut_cap (item_edges n k ps) X = pos_sum ps - gain k ps X.
Proof.
  intros X1 X2. induction ps as [|p ps IH]; intros k; [reflexivity|]. cbn [item_edges gain]. change (pos_sum (p :: ps)) with (Z.max 0 p + pos_sum ps).
  destruct (Z.leb_spec 0 p); cbn [cut_cap]; rewrite IH, ?X1, ?X2; destruct (X k); cbn [negb andb]; lia.
Qed.
Lemma fine_cut rs X : cut_cap rs X = fine rs X.
Proof. induction rs as [|[[u v] c] rs IH]; [reflexivity|]. cbn [cut_cap fine fst snd]. rewrite IH. reflexivity. Qed.
Lemma select_cut n ps rs X : X n = true -> X (S n) = false -> cut_cap (item_edges n 0 ps ++ rs) X = pos_sum ps - profit ps rs X.
Proof. intros X1 X2. rewrite cut_app, (item_cut n ps X X1 X2), fine_cut. unfold profit. lia. Qed.
Lemma item_network T n ps : profits_ok T ps -> forall k, (k + length ps <= n)%nat -> network T (n + 2) (item_edges n k ps).
Proof.
  induction 1 as [|p ps Hp _ IH]; intros k Hk; [constructor|]. cbn [item_edges length] in *. apply Forall_cons. split; [|apply IH; lia]. destruct (Z.leb_spec 0 p); cbn; split_and!; lia.
Qed.
Lemma gain_ext ps X Y : forall k, (forall i, (k <= i < k + length ps)%nat -> X i = Y i) -> gain k ps X = gain k ps Y.
Proof. induction ps as [|p ps IH]; intros k H; [reflexivity|]. cbn [gain length] in *. rewrite (H k), (IH (S k)) by (try (intros; apply H); lia). reflexivity. Qed.
Lemma fine_ext T n rs X Y : pairs_ok T n rs -> (forall i, (i < n)%nat -> X i = Y i) -> fine rs X = fine rs Y.
Proof. intros F H. induction F as [|r rs (H1 & H2 & _) _ IH]; [reflexivity|]. cbn [fine]. rewrite IH, (H _ H1), (H _ H2). reflexivity. Qed.
Lemma gain_none ps : forall k, gain k ps (fun _ => false) = 0.
Proof. induction ps as [|p ps IH]; intros k; cbn; [|rewrite IH]; reflexivity. Qed.
Lemma fine_none rs : fine rs (fun _ => false) = 0.
Proof. induction rs as [|r rs IH]; cbn; [|rewrite IH]; reflexivity. Qed.
Lemma gain_le ps X : forall k, gain k ps X <= pos_sum ps.
Proof. induction ps as [|p ps IH]; intros k; [reflexivity|]. cbn [gain]. change (pos_sum (p :: ps)) with (Z.max 0 p + pos_sum ps). specialize (IH (S k)). destruct (X k); lia. Qed.
Lemma fine_nonneg T n rs X : pairs_ok T n rs -> 0 <= fine rs X.
Proof. induction 1 as [|r rs (_ & _ & H) _ IH]; cbn [fine]; [lia|]. destruct (_ && _); lia. Qed.

Lemma best_ok T ps rs : T ∈ prim_types -> Z.of_nat (length ps + 2) <= 2 ^ 31 - 1 -> profits_ok T ps -> pairs_ok T (length ps) rs -> pos_sum ps <= it_max T ->
  exists v, best_gain T ps rs = Ok v /\ 0 <= v <= pos_sum ps /\ (exists X, profit ps rs X = v) /\ forall X, profit ps rs X <= v.
Proof.
  intros HT Hn Hp Hr Hs. set (n := length ps) in *.
  assert (St : setting T (n + 2) n (S n)) by (split_and!; [exact HT|exact Hn|lia..]).
  assert (Nw : network T (n + 2) (item_edges n 0 ps ++ rs)).
  { apply Forall_app. split; [apply item_network; [exact Hp|cbn; lia]|]. eapply Forall_impl; [exact Hr|]. intros r (H1 & H2 & H3). split_and!; lia. }
  assert (Hext : forall X, exists Y, Y n = true /\ Y (S n) = false /\ profit ps rs Y = profit ps rs X).
  { intros X. exists (fun x => if (x <? n)%nat then X x else (x =? n)%nat). rewrite Nat.ltb_irrefl, Nat.eqb_refl. destruct (Nat.ltb_spec (S n) n); [lia|]. split_and!; [reflexivity|apply Nat.eqb_neq; lia|]. unfold profit. f_equal.
    - apply gain_ext. intros i Hi. destruct (Nat.ltb_spec i n); [reflexivity|]. fold n in Hi. lia.
    - apply (fine_ext T n); [exact Hr|]. intros i Hi. destruct (Nat.ltb_spec i n); [reflexivity|lia]. }
  assert (Hz : profit ps rs (fun _ => false) = 0) by (unfold profit; rewrite gain_none, fine_none; reflexivity).
  unfold best_gain. fold n. destruct (outcome T (n + 2) _ n (S n) St Nw) as [[E P]|(v & E & [(X & X1 & X2 & X3) M] & B)].
  - destruct (Hext (fun _ => false)) as (Y & Y1 & Y2 & Y3). specialize (P Y Y1 Y2). rewrite (select_cut n ps rs Y Y1 Y2), Y3, Hz in P. lia.
  - rewrite E. cbn [mbind res_bind]. rewrite (select_cut n ps rs X X1 X2) in X3. eexists. split; [reflexivity|].
    assert (Hmax : forall Z, profit ps rs Z <= pos_sum ps - v).
    { intros Z. destruct (Hext Z) as (Y & Y1 & Y2 & Y3). specialize (M Y Y1 Y2). rewrite (select_cut n ps rs Y Y1 Y2) in M. lia. }
    split; [|split; [exists X; lia|exact Hmax]]. specialize (Hmax (fun _ => false)). lia.
Qed.

Lemma fine_open (c : Z) qs X : 0 <= c -> (closed qs X /\ fine (map (fun q => (q, c)) qs) X = 0) \/ c <= fine (map (fun q => (q, c)) qs) X.
Proof.
  intros Hc. assert (Hn : forall qs, 0 <= fine (map (fun q => (q, c)) qs) X).
  { clear -Hc. induction qs as [|q qs IH]; cbn [fine map]; [lia|]. destruct (_ && _); cbn; lia. }
  induction qs as [|[u v] qs IH]; [left; split; [intros u v H; inversion H|reflexivity]|]. cbn [map fine fst snd]. specialize (Hn qs). destruct (X u) eqn:Eu, (X v) eqn:Ev; cbn [negb andb].
  all: try (right; lia). all: destruct IH as [[IH IE]|IH]; [left; split; [|lia]|right; lia]. all: intros a b Hab; apply elem_of_cons in Hab as [[= -> ->]|Hab]; [congruence|apply (IH a b Hab)].
Qed.
Close Scope Z_scope.
