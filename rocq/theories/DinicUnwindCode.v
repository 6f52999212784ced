(** The programs of DinicUnwindModel.v are those of DinicModel.v. *)
From Verif Require Import Prelude Unwind IntModel DinicModel DinicUnwindModel LazyUnwindCode.
Open Scope Z_scope.

Lemma strip_set_e f d : strip (dnu_set_e f d) = (e ← f (dn_e d); Ok (DN (dn_n d) e (dn_g d) (dn_cur d) (dn_h d), tt)).
Proof. unfold dnu_set_e. rewrite strip_write. destruct (f (dn_e d)); reflexivity. Qed.
Lemma strip_set_g f d : strip (dnu_set_g f d) = (g ← f (dn_g d); Ok (DN (dn_n d) (dn_e d) g (dn_cur d) (dn_h d), tt)).
Proof. unfold dnu_set_g. rewrite strip_write. destruct (f (dn_g d)); reflexivity. Qed.
Lemma strip_set_cur f d : strip (dnu_set_cur f d) = (cur ← f (dn_cur d); Ok (DN (dn_n d) (dn_e d) (dn_g d) cur (dn_h d), tt)).
Proof. unfold dnu_set_cur. rewrite strip_write. destruct (f (dn_cur d)); reflexivity. Qed.
Lemma strip_set_h f d : strip (dnu_set_h f d) = (h ← f (dn_h d); Ok (DN (dn_n d) (dn_e d) (dn_g d) (dn_cur d) h, tt)).
Proof. unfold dnu_set_h. rewrite strip_write. destruct (f (dn_h d)); reflexivity. Qed.

Definition with_h (d : dinic) (h : list Z) : dinic := DN (dn_n d) (dn_e d) (dn_g d) (dn_cur d) h.
Definition with_ec (d : dinic) (e : list dedge) (cur : list nat) : dinic := DN (dn_n d) e (dn_g d) cur (dn_h d).
Lemma with_h_self d : with_h d (dn_h d) = d.
Proof. destruct d; reflexivity. Qed.
Lemma with_ec_self d : with_ec d (dn_e d) (dn_cur d) = d.
Proof. destruct d; reflexivity. Qed.

Lemma strip_bfs_scan u t es : forall q d, strip (dnu_bfs_scan u t es q d) =
  (x ← bfs_scan (dn_e d) u t es (dn_h d) q; Ok (with_h d x.2.1, (x.1, x.2.2))).
Proof.
  induction es as [|i es IH]; intros q d; cbn [dnu_bfs_scan bfs_scan]; [rewrite strip_ret; cbn; rewrite with_h_self; reflexivity|].
  rewrite strip_bind, strip_read. destruct (vget (dn_e d) i) as [[v c]| |]; cbn [mbind res_bind]; [|reflexivity|reflexivity].
  destruct (0 <? c); [|apply IH]. rewrite strip_bind, strip_read. destruct (vget (dn_h d) v) as [hv| |]; cbn [mbind res_bind]; [|reflexivity|reflexivity].
  destruct (hv =? -1); [|apply IH]. rewrite strip_bind, strip_read. destruct (vget (dn_h d) u) as [hu| |]; cbn [mbind res_bind]; [|reflexivity|reflexivity].
  destruct (iadd i32 hu 1) as [k| |]; cbn [mbind res_bind]; [|reflexivity|reflexivity]. rewrite strip_bind, strip_set_h.
  destruct (vset (dn_h d) v k) as [h| |]; cbn [mbind res_bind]; [|reflexivity|reflexivity]. destruct (v =? t)%nat; [reflexivity|]. rewrite IH. cbn [dn_e dn_h]. reflexivity.
Qed.
Lemma strip_bfs_step t q d : bfs_step (dn_e d) (dn_g d) t (dn_h d, q) =
  ('(d, r) ← strip (dnu_bfs_step t q d); Ok (match r with inl q => inl (dn_h d, q) | inr b => inr (b, dn_h d) end)).
Proof.
  unfold dnu_bfs_step, bfs_step. destruct q as [|u q]; [reflexivity|]. rewrite strip_bind, strip_read.
  destruct (vget (dn_g d) u) as [es| |]; cbn [mbind res_bind]; [|reflexivity|reflexivity]. rewrite strip_bind, strip_bfs_scan.
  destruct (bfs_scan _ _ _ _ _ _) as [[[] [h q']]| |]; reflexivity.
Qed.
(** bfs writes nothing but h. *)
Lemma bfs_step_frame t q d : match strip (dnu_bfs_step t q d) with Ok (d', _) => d' = with_h d (dn_h d') | _ => True end.
Proof.
  unfold dnu_bfs_step. destruct q as [|u q]; [cbn; rewrite with_h_self; reflexivity|]. rewrite strip_bind, strip_read.
  destruct (vget (dn_g d) u) as [es| |]; cbn [mbind res_bind]; auto. rewrite strip_bind, strip_bfs_scan.
  destruct (bfs_scan _ _ _ _ _ _) as [[[] [h q']]| |]; cbn; auto.
Qed.
Lemma strip_bfs_loop t fuel : forall q d, strip (uloop fuel (dnu_bfs_step t) q d) =
  (x ← rloop fuel (bfs_step (dn_e d) (dn_g d) t) (dn_h d, q); Ok (with_h d x.2, x.1)).
Proof.
  induction fuel as [|fuel IH]; intros q d; [reflexivity|]. cbn [uloop rloop]. rewrite strip_bind, strip_bfs_step.
  pose proof (bfs_step_frame t q d) as F. destruct (strip (dnu_bfs_step t q d)) as [[d' [q'|b]]| |]; cbn [mbind res_bind]; [| |reflexivity|reflexivity].
  - rewrite IH. rewrite F. reflexivity.
  - rewrite F. reflexivity.
Qed.
Lemma strip_bfs s t d : strip (dnu_bfs s t d) = (x ← bfs (dn_e d) (dn_g d) (dn_h d) s t; Ok (with_h d x.2, x.1)).
Proof.
  unfold dnu_bfs, bfs. rewrite strip_bind, strip_set_h. cbn [mbind res_bind]. rewrite strip_bind, strip_set_h. cbn [dn_h].
  destruct (vset _ s 0) as [h| |]; cbn [mbind res_bind]; [|reflexivity|reflexivity]. rewrite strip_bind, strip_read. cbn [mbind res_bind].
  rewrite strip_bfs_loop. reflexivity.
Qed.

Lemma strip_dfs_step T rec recr u s d : (forall v f d', dn_g d' = dn_g d -> dn_h d' = dn_h d -> dn_n d' = dn_n d ->
    strip (rec v f d') = ('(a, (e, cur)) ← recr v f (dn_e d') (dn_cur d'); Ok (with_ec d e cur, a))) ->
  strip (dnu_dfs_step T rec u s d) =
  (x ← dfs_step T recr (dn_g d) (dn_h d) u (s.1, s.2, dn_e d, dn_cur d);
   Ok (match x with inl (r, i, e, cur) => (with_ec d e cur, inl (r, i)) | inr (r, (e, cur)) => (with_ec d e cur, inr r) end)).
Proof.
  intros Hr. destruct s as [r i]. unfold dnu_dfs_step, dfs_step. cbn [fst snd]. rewrite strip_bind, strip_read.
  destruct (vget (dn_g d) u) as [js| |]; cbn [mbind res_bind]; [|reflexivity|reflexivity].
  destruct (i <? length js)%nat; [|cbn; rewrite with_ec_self; reflexivity]. rewrite strip_bind, strip_read.
  destruct (vget js i) as [j| |]; cbn [mbind res_bind]; [|reflexivity|reflexivity]. rewrite strip_bind, strip_read.
  destruct (vget (dn_e d) j) as [[v c]| |]; cbn [mbind res_bind]; [|reflexivity|reflexivity]. rewrite strip_bind, strip_read.
  match goal with |- context [if 0 <? c then ?x else Ok false] => destruct (if 0 <? c then x else Ok false) as [[]| |] end; cbn [mbind res_bind]; [| |reflexivity|reflexivity].
  2: { rewrite strip_bind, strip_set_cur. destruct (vset (dn_cur d) u (i + 1)%nat); reflexivity. }
  rewrite strip_bind, Hr by reflexivity. destruct (recr v (Z.min r c) (dn_e d) (dn_cur d)) as [[a [e cur]]| |]; cbn [mbind res_bind]; [|reflexivity|reflexivity].
  rewrite strip_bind, strip_set_e. cbn [dn_e with_ec]. destruct (vget e j) as [ej| |]; cbn [mbind res_bind]; [|reflexivity|reflexivity].
  destruct (isub T ej.2 a) as [c1| |]; cbn [mbind res_bind]; [|reflexivity|reflexivity].
  destruct (vset e j (ej.1, c1)) as [e1| |]; cbn [mbind res_bind]; [|reflexivity|reflexivity].
  rewrite strip_bind, strip_set_e. cbn [dn_e]. destruct (vget e1 (Nat.lxor j 1)) as [ek| |]; cbn [mbind res_bind]; [|reflexivity|reflexivity].
  destruct (iadd T ek.2 a) as [c2| |]; cbn [mbind res_bind]; [|reflexivity|reflexivity].
  destruct (vset e1 (Nat.lxor j 1) (ek.1, c2)) as [e2| |]; cbn [mbind res_bind]; [|reflexivity|reflexivity].
  rewrite strip_bind, strip_read. destruct (isub T r a) as [r1| |]; cbn [mbind res_bind]; [|reflexivity|reflexivity].
  destruct (r1 =? 0); [reflexivity|]. rewrite strip_bind, strip_set_cur. cbn [dn_cur with_ec]. destruct (vset cur u (i + 1)%nat); reflexivity.
Qed.
Lemma strip_dfs fuel T t : forall u f d, strip (dnu_dfs fuel T t u f d) =
  ('(a, (e, cur)) ← fdfs fuel T (dn_g d) (dn_h d) t u f (dn_e d) (dn_cur d); Ok (with_ec d e cur, a)).
Proof.
  induction fuel as [|fuel IH]; intros u f d; [reflexivity|]. cbn [dnu_dfs fdfs]. destruct (u =? t)%nat; [rewrite strip_ret; cbn; rewrite with_ec_self; reflexivity|].
  rewrite strip_bind, strip_read. destruct (vget (dn_cur d) u) as [i| |]; cbn [mbind res_bind]; [|reflexivity|reflexivity].
  rewrite strip_bind, strip_read. destruct (vget (dn_g d) u) as [js| |]; cbn [mbind res_bind]; [|reflexivity|reflexivity].
  rewrite strip_bind.
  assert (forall k d' r i, dn_g d' = dn_g d -> dn_h d' = dn_h d -> dn_n d' = dn_n d ->
    strip (uloop k (dnu_dfs_step T (dnu_dfs fuel T t) u) (r, i) d') =
    ('(r, (e, cur)) ← rloop k (dfs_step T (fdfs fuel T (dn_g d) (dn_h d) t) (dn_g d) (dn_h d) u) (r, i, dn_e d', dn_cur d'); Ok (with_ec d e cur, r))) as HL.
  { induction k as [|k IHk]; intros d' r i' G1 G2 G3; [reflexivity|]. cbn [uloop rloop]. rewrite strip_bind.
    rewrite (strip_dfs_step T _ (fdfs fuel T (dn_g d) (dn_h d) t)).
    2: { intros v f' d'' K1 K2 K3. rewrite IH. unfold with_ec. rewrite K1, K2, K3, G1, G2, G3. reflexivity. }
    rewrite G1, G2. cbn [fst snd]. destruct (dfs_step _ _ _ _ _ _) as [[[[[r1 i1] e1] cur1]|[r1 [e1 cur1]]]| |]; cbn [mbind res_bind]; [| |reflexivity|reflexivity].
    - rewrite IHk by (cbn; congruence). reflexivity.
    - unfold with_ec. rewrite G1, G2, G3. reflexivity. }
  rewrite HL by reflexivity. destruct (rloop _ _ _) as [[r [e cur]]| |]; cbn [mbind res_bind fst snd]; [|reflexivity|reflexivity]. rewrite strip_read.
  destruct (isub T f r); reflexivity.
Qed.

Lemma strip_dn_add_edge u v c d : strip (dnu_add_edge u v c d) = (d ← dn_add_edge d u v c; Ok (d, tt)).
Proof.
  unfold dnu_add_edge, dn_add_edge. rewrite strip_bind, strip_read. cbn [mbind res_bind]. rewrite strip_bind, strip_set_g.
  destruct (vget (dn_g d) u) as [gu| |]; cbn [mbind res_bind]; [|reflexivity|reflexivity].
  destruct (vset (dn_g d) u _) as [g| |]; cbn [mbind res_bind]; [|reflexivity|reflexivity]. rewrite strip_bind, strip_set_e. cbn [mbind res_bind dn_e].
  rewrite strip_bind, strip_read. cbn [mbind res_bind dn_e]. rewrite strip_bind, strip_set_g. cbn [dn_g].
  destruct (vget g v) as [gv| |]; cbn [mbind res_bind]; [|reflexivity|reflexivity]. destruct (vset g v _) as [g'| |]; cbn [mbind res_bind]; [|reflexivity|reflexivity].
  rewrite strip_set_e. reflexivity.
Qed.

Lemma strip_flow_step T s t ans d : flow_step T s t (ans, d) =
  ('(d, r) ← strip (dnu_flow_step T s t ans d); Ok (match r with inl a => inl (a, d) | inr a => inr (a, d) end)).
Proof.
  unfold dnu_flow_step, flow_step. rewrite strip_bind, strip_bfs. destruct (bfs _ _ _ s t) as [[b h]| |]; cbn [mbind res_bind fst snd]; [|reflexivity|reflexivity].
  destruct b; [|reflexivity]. rewrite strip_bind, strip_set_cur. cbn [mbind res_bind]. rewrite strip_bind, strip_read. cbn [mbind res_bind with_h dn_g].
  rewrite strip_bind, strip_dfs. cbn [dn_g dn_h dn_e dn_cur]. destruct (fdfs _ _ _ _ _ _ _ _ _) as [[a [e cur]]| |]; cbn [mbind res_bind]; [|reflexivity|reflexivity].
  rewrite strip_bind, strip_read. destruct (iadd T ans a) as [ans'| |]; reflexivity.
Qed.
Lemma strip_dn_max_flow T s t d : strip (dnu_max_flow T s t d) = dn_max_flow T d s t.
Proof.
  unfold dnu_max_flow, dn_max_flow. rewrite strip_bind, strip_read. cbn [mbind res_bind]. unfold dnu_max_flow_for.
  rewrite strip_bind, strip_read. destruct (rassert (s <? dn_n d)%nat) as [[]| |]; cbn [mbind res_bind]; [|reflexivity|reflexivity].
  rewrite strip_bind, strip_read. destruct (rassert (t <? dn_n d)%nat) as [[]| |]; cbn [mbind res_bind]; [|reflexivity|reflexivity].
  pose proof (strip_loop (fun (d : dinic) (a : Z) => (a, d)) (fun (d : dinic) (a : Z) => (a, d)) (dnu_flow_step T s t) (flow_step T s t) (fun b s0 => strip_flow_step T s t b s0) (S (S (dn_n d))) 0 d) as HL.
  rewrite HL. destruct (strip _) as [[d' a]| |]; reflexivity.
Qed.
Lemma strip_dn_step T o d : strip (dnu_step T o d) = dn_step T d o.
Proof.
  destruct o as [u v c|s t]; cbn [dnu_step dn_step]; rewrite strip_bind.
  - rewrite strip_dn_add_edge. destruct (dn_add_edge d u v c); reflexivity.
  - rewrite strip_dn_max_flow. destruct (dn_max_flow T d s t) as [[? ?]| |]; reflexivity.
Qed.
Close Scope Z_scope.
