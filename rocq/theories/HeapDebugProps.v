(** Debug text of MinHeap (C127). *)
From Coq Require Import Ascii String Sorting.Sorted.
From Verif Require Import Prelude ArraySpec HeapModel HeapSpec BinHeapModel BinHeapSpec BinHeapProof BinHeapProps HeapDebugModel HeapDebugSpec.

Lemma foldl_listed items : forall t, exists r, foldl list_entry (t, true) items = (t ++ r, true) /\ forall x, listed (x :: items) (x ++ r).
Proof.
  induction items as [|y items IH]; intros t; cbn [foldl].
  - exists []. rewrite app_nil_r. split; [reflexivity|]. intros x. rewrite app_nil_r. constructor.
  - destruct (IH (t ++ txt ", " ++ y)) as (r & E & L). exists (txt ", " ++ y ++ r). split; [unfold list_entry at 2; cbn [fst snd]; rewrite E, <- !app_assoc; reflexivity|]. intros x. constructor. apply L.
Qed.
Lemma list_plain_ok items : exists t, listed items t /\ list_plain items = txt "[" ++ t ++ txt "]".
Proof.
  unfold list_plain. destruct items as [|x items]; cbn [foldl]; [exists []; split; [constructor|reflexivity]|]. destruct (foldl_listed items (txt "[" ++ x)) as (r & E & L). exists (x ++ r). split; [apply L|].
  unfold list_entry at 2. cbn [fst snd app]. change (txt "[" ++ [] ++ x) with (txt "[" ++ x). rewrite E. cbn [fst]. rewrite <- !app_assoc. reflexivity.
Qed.
Lemma listed_fun l : forall t1 t2, listed l t1 -> listed l t2 -> t1 = t2.
Proof.
  induction l as [|x l IH]; intros t1 t2 H1 H2.
  - inversion H1. inversion H2. congruence.
  - inversion H1; subst; inversion H2; subst; try reflexivity. do 2 f_equal. apply IH; assumption.
Qed.
Lemma cut (c : Z) a : forall b r s, ~ In c a -> ~ In c b -> a ++ c :: r = b ++ c :: s -> a = b /\ r = s.
Proof.
  induction a as [|x a IH]; intros b r s Ha Hb E.
  - destruct b as [|y b]; cbn in E; [injection E as ->; auto|]. injection E as -> _. exfalso. apply Hb. left. reflexivity.
  - destruct b as [|y b]; cbn in E; [injection E as -> _; exfalso; apply Ha; left; reflexivity|]. injection E as -> E. destruct (IH b r s) as [-> ->]; [intros F; apply Ha; right; exact F|intros F; apply Hb; right; exact F|exact E|]. auto.
Qed.
Definition item {T} (show : T -> list Z) (x : reverse T) : list Z := txt "Reverse(" ++ show (rev_get x) ++ txt ")".
Lemma item_eq {T} (show : T -> list Z) x : tuple_plain "Reverse" (show (rev_get x)) = item show x.
Proof. unfold tuple_plain, item. cbn. reflexivity. Qed.
Lemma item_cut {T} (show : T -> list Z) (x y : reverse T) r s : (forall z, ~ In 41%Z (show z)) -> (forall a b, show a = show b -> a = b) -> item show x ++ r = item show y ++ s -> x = y /\ r = s.
Proof.
  intros N Inj E. unfold item in E. rewrite <- !app_assoc in E. apply app_inv_head in E. cbn in E. apply cut in E as [E1 E2]; [|apply N|apply N]. apply Inj in E1. destruct x, y. cbn in E1. split; congruence.
Qed.
Lemma listed_inj {T} (show : T -> list Z) : (forall z, ~ In 41%Z (show z)) -> (forall a b, show a = show b -> a = b) ->
  forall l1 l2 t1 t2, listed (map (item show) l1) t1 -> listed (map (item show) l2) t2 -> t1 ++ txt "])" = t2 ++ txt "])" -> l1 = l2.
Proof.
  intros N Inj. induction l1 as [|x l1 IH]; intros l2 t1 t2 L1 L2 E.
  - cbn in L1. inversion L1; subst. destruct l2 as [|y l2]; [reflexivity|]. exfalso. cbn in L2. inversion L2; subst; cbn in E; discriminate.
  - destruct l2 as [|y l2]; [exfalso; cbn in L2; inversion L2; subst; cbn in L1; inversion L1; subst; cbn in E; discriminate|].
    cbn [map] in L1, L2. destruct l1 as [|x' l1]; destruct l2 as [|y' l2]; cbn [map] in L1, L2; inversion L1; subst; inversion L2; subst.
    + apply item_cut in E as [-> _]; auto.
    + rewrite <- app_assoc in E. apply item_cut in E as [_ E]; auto. cbn in E. discriminate.
    + rewrite <- app_assoc in E. apply item_cut in E as [_ E]; auto. cbn in E. discriminate.
    + rewrite <- !app_assoc in E. apply item_cut in E as [-> E]; auto. apply app_inv_head in E. f_equal. eapply IH; eassumption.
Qed.

(** C127: after any history of calls {:?} prints MinHeap([Reverse(x), Reverse(y), ...]) with the content of the queue in an order in which
    every element comes after one that is not greater, the least first. *)
Theorem C127_debug {T} (show : T -> list Z) (cmp : T -> T -> comparison) (le : T -> T -> Prop) ops : ordered cmp le ->
  exists h outs bag l t, run (bin_step cmp) [] ops = Ok (h, outs) /\ mh_spec_run le [] ops outs bag /\ l ≡ₚ bag /\
    (forall i x, l !! i = Some x -> 0 < i -> exists j y, j < i /\ l !! j = Some y /\ le y x) /\ (forall x y, l !! 0 = Some x -> y ∈ l -> le x y) /\
    listed (map (fun x => txt "Reverse(" ++ show x ++ txt ")") l) t /\ mh_debug show h = txt "MinHeap([" ++ t ++ txt "])".
Proof.
  intros O. destruct (run_ok cmp ops []) as (h & outs & E & _ & L). destruct (L le O (heap_order_nil _)) as [H M]. destruct (list_plain_ok (map (item show) h)) as (t & Lt & Et).
  exists h, outs, (map rev_get h), (map rev_get h), t. split; [exact E|]. split; [exact M|]. split; [reflexivity|]. split; [|split; [|split]].
  - intros i x Hx Hi. change (map rev_get h) with (rev_get <$> h) in *. rewrite list_lookup_fmap in Hx. destruct (h !! i) as [z|] eqn:Hz; [|discriminate]. injection Hx as <-. pose proof (lookup_lt_Some _ _ _ Hz) as Hl.
    assert (Hj : (i - 1) / 2 < i) by (apply Nat.div_lt_upper_bound; lia). destruct (lookup_lt_is_Some_2 h ((i - 1) / 2)) as [w Hw]; [lia|]. exists ((i - 1) / 2), (rev_get w). split; [exact Hj|]. rewrite list_lookup_fmap, Hw. split; [reflexivity|].
    exact (H i z w Hi Hz Hw).
  - intros x y Hx Hy. change (map rev_get h) with (rev_get <$> h) in *. rewrite list_lookup_fmap in Hx. destruct (h !! 0) as [z|] eqn:Hz; [|discriminate]. injection Hx as <-. apply elem_of_list_fmap in Hy as (w & -> & Hw).
    exact (heap_top (rev_cmp cmp) (rev_le le) h z (rev_ordered cmp le O) H Hz w Hw).
  - rewrite map_map. exact Lt.
  - unfold mh_debug. rewrite (map_ext _ (item show) (item_eq show)), Et. unfold tuple_plain. rewrite <- !app_assoc. reflexivity.
Qed.
Print Assumptions C127_debug.
(** Whatever cmp is, if no element prints a closing parenthesis and different elements print differently, equal texts mean equal arrays. *)
Theorem C127_inj {T} (show : T -> list Z) : (forall z, ~ In 41%Z (show z)) -> (forall a b, show a = show b -> a = b) -> forall h1 h2, mh_debug show h1 = mh_debug show h2 <-> h1 = h2.
Proof.
  intros N Inj h1 h2. split; [|intros ->; reflexivity]. unfold mh_debug. rewrite (map_ext _ (item show) (item_eq show) h1), (map_ext _ (item show) (item_eq show) h2). destruct (list_plain_ok (map (item show) h1)) as (t1 & L1 & ->). destruct (list_plain_ok (map (item show) h2)) as (t2 & L2 & ->).
  unfold tuple_plain. rewrite <- !app_assoc. intros E. do 3 apply app_inv_head in E. exact (listed_inj show N Inj h1 h2 t1 t2 L1 L2 E).
Qed.
Print Assumptions C127_inj.

Lemma pad_app a : forall on b, pad on (a ++ b) = pad on a ++ pad (match last a with Some c => (c =? 10)%Z | None => on end) b.
Proof. induction a as [|c a IH]; intros on b; [reflexivity|]. cbn [app pad]. rewrite IH, <- app_assoc. cbn [app]. do 2 f_equal. f_equal. destruct a; [reflexivity|]. cbn [last]. destruct (last (z :: a)) eqn:F; [reflexivity|]. apply last_None in F. discriminate. Qed.
Lemma pad_line a : one_line a -> pad false a = a.
Proof. intros H. induction a as [|c a IH]; [reflexivity|]. cbn [pad app]. destruct (Z.eqb_spec c 10) as [->|Hne]; [exfalso; apply H; left; reflexivity|]. f_equal. apply IH. intros F. apply H. right. exact F. Qed.
Lemma pad_nl a b on : one_line a -> pad on (a ++ nl ++ b) = (if on && negb (bool_decide (a ++ nl = [])) then txt "    " else []) ++ a ++ nl ++ pad true b.
Proof.
  intros H. destruct a as [|c a].
  - cbn [app nl pad]. destruct on; reflexivity.
  - cbn [app pad]. assert (Hc : (c =? 10)%Z = false) by (apply Z.eqb_neq; intros ->; apply H; left; reflexivity). rewrite Hc, pad_app. rewrite pad_line by (intros F; apply H; right; exact F).
    assert (El : match last a with Some c => (c =? 10)%Z | None => false end = false).
    { destruct (last a) as [d|] eqn:F; [|reflexivity]. apply last_Some in F as (a' & ->). apply Z.eqb_neq. intros ->. apply H. right. apply in_or_app. right. left. reflexivity. }
    rewrite El. destruct on; reflexivity.
Qed.
Lemma pad_lines ls b : Forall one_line ls -> pad true (lines ls ++ b) = lines (map (app (txt "    ")) ls) ++ pad true b.
Proof.
  induction 1 as [|l ls H _ IH]; [reflexivity|]. unfold lines in *. cbn [map concat]. rewrite <- !app_assoc. rewrite pad_nl by exact H. rewrite bool_decide_false by (destruct l; discriminate). cbn [andb negb]. rewrite IH. reflexivity.
Qed.
Lemma lines_app a b : lines (a ++ b) = lines a ++ lines b.
Proof. unfold lines. rewrite map_app, concat_app. reflexivity. Qed.
Lemma foldl_alt items : forall t, foldl list_alt_entry (t, true) items = (t ++ concat (map (fun x => pad true (x ++ txt "," ++ nl)) items), true).
Proof. induction items as [|x items IH]; intros t; cbn [foldl]; [rewrite app_nil_r; reflexivity|]. unfold list_alt_entry at 2. cbn [fst snd]. rewrite IH. cbn [map concat]. rewrite <- !app_assoc. reflexivity. Qed.
Lemma list_alt_ok items : items <> [] -> list_alt items = txt "[" ++ nl ++ concat (map (fun x => pad true (x ++ txt "," ++ nl)) items) ++ txt "]".
Proof. intros H. unfold list_alt. destruct items as [|x items]; [congruence|]. cbn [foldl]. unfold list_alt_entry at 2. cbn [fst snd]. rewrite foldl_alt. cbn [fst map concat]. rewrite <- !app_assoc. reflexivity. Qed.

Definition spaces4 : list Z := txt "    ".
Definition spaces8 : list Z := txt "        ".
Definition spaces12 : list Z := txt "            ".
Definition alt_item {T} (show : T -> list Z) (x : T) : list (list Z) := [spaces8 ++ txt "Reverse("; spaces12 ++ show x ++ txt ","; spaces8 ++ txt "),"].
(** {:#?}: one element in three lines, provided the text of an element is one line. *)
Theorem C127_debug_alt {T} (show_alt : T -> list Z) (h : list (reverse T)) : (forall x, one_line (show_alt x)) ->
  mh_debug_alt show_alt h =
    if decide (h = []) then lines [txt "MinHeap("; spaces4 ++ txt "[],"] ++ txt ")"
    else lines ([txt "MinHeap("; spaces4 ++ txt "["] ++ concat (map (fun x => alt_item show_alt (rev_get x)) h) ++ [spaces4 ++ txt "],"]) ++ txt ")".
Proof.
  intros H. unfold mh_debug_alt. destruct (decide (h = [])) as [->|Hne]; [reflexivity|]. rewrite list_alt_ok by (destruct h; [congruence|discriminate]).
  assert (L1 : one_line (txt "Reverse(")) by (unfold one_line; cbn; intuition discriminate).
  assert (Hi : forall x, pad true (tuple_alt "Reverse" (show_alt x) ++ txt "," ++ nl) = lines [spaces4 ++ txt "Reverse("; spaces8 ++ show_alt x ++ txt ","; spaces4 ++ txt "),"]).
  { intros x. assert (Lx : one_line (show_alt x ++ txt ",")) by (intros F; apply in_app_or in F as [F|F]; [exact (H x F)|cbn in F; intuition discriminate]).
    assert (E1 : pad true (show_alt x ++ txt "," ++ nl) = lines [spaces4 ++ show_alt x ++ txt ","]).
    { replace (show_alt x ++ txt "," ++ nl) with (lines [show_alt x ++ txt ","] ++ []) by (unfold lines; cbn [map concat]; rewrite !app_nil_r, <- app_assoc; reflexivity). rewrite pad_lines by (repeat constructor; exact Lx). cbn [pad]. rewrite app_nil_r. reflexivity. }
    unfold tuple_alt. rewrite E1.
    replace ((txt "Reverse" ++ txt "(" ++ nl ++ lines [spaces4 ++ show_alt x ++ txt ","] ++ txt ")") ++ txt "," ++ nl) with (lines [txt "Reverse("; spaces4 ++ show_alt x ++ txt ","; txt "),"] ++ []).
    2:{ unfold lines. cbn [map concat]. rewrite !app_nil_r, <- !app_assoc. reflexivity. }
    rewrite pad_lines; [cbn [pad]; rewrite app_nil_r; reflexivity|]. constructor; [exact L1|]. constructor; [|repeat constructor; unfold one_line; cbn; intuition discriminate].
    intros F. apply in_app_or in F as [F|F]; [cbn in F; intuition discriminate|exact (Lx F)]. }
  assert (Hc : concat (map (fun x => pad true (x ++ txt "," ++ nl)) (map (fun x => tuple_alt "Reverse" (show_alt (rev_get x))) h)) = lines (concat (map (fun x => [spaces4 ++ txt "Reverse("; spaces8 ++ show_alt (rev_get x) ++ txt ","; spaces4 ++ txt "),"]) h))).
  { clear Hne. induction h as [|x h IH]; [reflexivity|]. cbn [map concat]. rewrite IH, Hi, <- lines_app. reflexivity. }
  rewrite Hc. unfold tuple_alt. set (body := concat (map _ h)).
  assert (Hb : Forall one_line body).
  { unfold body. clear -H. induction h as [|x h IH]; cbn [map concat]; [constructor|]. apply Forall_app. split; [|exact IH]. repeat constructor; try (unfold one_line; cbn; intuition discriminate).
    intros F. apply in_app_or in F as [F|F]; [cbn in F; intuition discriminate|]. apply in_app_or in F as [F|F]; [exact (H _ F)|cbn in F; intuition discriminate]. }
  replace ((txt "[" ++ nl ++ lines body ++ txt "]") ++ txt "," ++ nl) with (lines ([txt "["] ++ body ++ [txt "],"]) ++ []).
  2:{ rewrite !lines_app, app_nil_r. unfold lines at 1 3. cbn [map concat]. rewrite !app_nil_r, <- !app_assoc. reflexivity. }
  rewrite pad_lines.
  2:{ apply Forall_app. split; [repeat constructor; unfold one_line; cbn; intuition discriminate|]. apply Forall_app. split; [exact Hb|repeat constructor; unfold one_line; cbn; intuition discriminate]. }
  cbn [pad]. rewrite app_nil_r, !map_app. assert (Eb : map (app (txt "    ")) body = concat (map (fun x => alt_item show_alt (rev_get x)) h)).
  { unfold body. clear. induction h as [|x h IH]; [reflexivity|]. cbn [map concat]. rewrite map_app, IH. reflexivity. }
  rewrite Eb, !lines_app. unfold lines at 1 3 4 6. cbn [map concat]. rewrite !app_nil_r, <- !app_assoc. reflexivity.
Qed.
Print Assumptions C127_debug_alt.

(** A heap of digits. *)
Definition digit (d : Z) : list Z := [48 + d]%Z.
Example C127_nonvacuous : (s ← run (bin_step Z.compare) [] [MhPush 5; MhPush 2; MhPush 8; MhPush 1]%Z; Ok (mh_debug digit s.1)) = Ok (txt "MinHeap([Reverse(1), Reverse(2), Reverse(8), Reverse(5)])") /\
  mh_debug digit [] = txt "MinHeap([])" /\ mh_debug_alt digit [] = txt "MinHeap(" ++ nl ++ txt "    []," ++ nl ++ txt ")" /\
  mh_debug_alt digit [Reverse 7%Z] = txt "MinHeap(" ++ nl ++ txt "    [" ++ nl ++ txt "        Reverse(" ++ nl ++ txt "            7," ++ nl ++ txt "        )," ++ nl ++ txt "    ]," ++ nl ++ txt ")".
Proof. vm_compute. auto. Qed.
Example C127_inj_nonvacuous : (forall z : bool, ~ In 41%Z (if z then txt "true" else txt "false")) /\ (forall a b : bool, (if a then txt "true" else txt "false") = (if b then txt "true" else txt "false") -> a = b).
Proof. split; [intros []; cbn; intuition discriminate|intros [] []; cbn; congruence]. Qed.
