(** Over an operation, a mapping and a composition that compute or panic, the HLD does what it does over total ones or panics. *)
From Verif Require Import Prelude UtilModel ArraySpec LazySpec LazyModel PartialOps LazyChkModel LazyChkProof HldSpec HldModel HldChkModel.

Section Weaker.
  Context {S F : Type} (e : S) (op : S -> S -> S) (idm : F) (mapping : F -> S -> S) (comp : F -> F -> F).
  Context (opc : S -> S -> res S) (mappingc : F -> S -> res S) (compc : F -> F -> res F).
  Context (O : or_panics op opc) (OM : or_panics mapping mappingc) (OC : or_panics comp compc).

  Lemma le_hld_new g root : le_res (hldc_new e opc idm g root) (hld_new e op idm g root).
  Proof.
    apply le_bind; [apply le_refl|]. intros _. apply le_bind; [|intros; apply le_refl]. unfold ltc_new, lt_new. apply le_lt_from; assumption.
  Qed.
  Lemma le_hld_with_init g root v : le_res (hldc_with_init e opc idm g root v) (hld_with_init e op idm g root v).
  Proof.
    apply le_bind; [apply le_refl|]. intros _. apply le_bind; [apply le_hld_new|]. intros h. apply le_bind; [apply le_refl|]. intros a.
    apply le_bind; [|intros; apply le_refl]. apply le_lt_from; assumption.
  Qed.

  Lemma le_apply_path x u v f : le_res (hldc_apply_path opc idm mappingc compc x u v f) (apply_path op idm mapping comp x u v f).
  Proof.
    apply le_bind.
    - apply le_rloop. intros [[u1 v1] t]. apply le_bind; [apply le_refl|]. intros [[u2 v2]|]; [|apply le_refl].
      do 3 (apply le_bind; [apply le_refl|]; intros ?). apply le_bind; [apply le_lt_apply_range; assumption|]. intros. apply le_refl.
    - intros [[u1 v1] t]. do 3 (apply le_bind; [apply le_refl|]; intros ?). apply le_bind; [apply le_lt_apply_range; assumption|]. intros. apply le_refl.
  Qed.
  Lemma le_path_prod x u v : le_res (hldc_path_prod e opc idm mappingc compc x u v) (path_prod e op idm mapping comp x u v).
  Proof.
    apply le_bind.
    - apply le_rloop. intros [[[u1 v1] t] acc]. apply le_bind; [apply le_refl|]. intros [[u2 v2]|]; [|apply le_refl].
      do 3 (apply le_bind; [apply le_refl|]; intros ?). apply le_bind; [apply le_lt_prod; assumption|]. intros [t1 z].
      apply (le_opc op); [exact O|]. apply le_refl.
    - intros [[[u1 v1] t] acc]. do 3 (apply le_bind; [apply le_refl|]; intros ?). apply le_bind; [apply le_lt_prod; assumption|]. intros [t1 z].
      apply (le_opc op); [exact O|]. apply le_refl.
  Qed.

  Lemma le_hld_step x o : le_res (hldc_step e opc idm mappingc compc x o) (hld_step e op idm mapping comp x o).
  Proof.
    destruct o as [u v f|u v|u f|u|u|u y|o]; cbn [hldc_step hld_step].
    - apply le_bind; [apply le_apply_path|intros; apply le_refl].
    - apply le_bind; [apply le_path_prod|intros [? ?]; apply le_refl].
    - apply le_bind; [|intros; apply le_refl]. do 2 (apply le_bind; [apply le_refl|]; intros ?). apply le_bind; [apply le_lt_apply_range; assumption|]. intros. apply le_refl.
    - apply le_bind; [|intros [? ?]; apply le_refl]. do 2 (apply le_bind; [apply le_refl|]; intros ?). apply le_bind; [apply le_lt_prod; assumption|]. intros. apply le_refl.
    - apply le_bind; [|intros [? ?]; apply le_refl]. apply le_bind; [apply le_refl|]; intros ?. apply le_bind; [apply le_lt_get; assumption|]. intros. apply le_refl.
    - apply le_bind; [|intros; apply le_refl]. apply le_bind; [apply le_refl|]; intros ?. apply le_bind; [apply le_lt_set; assumption|]. intros. apply le_refl.
    - apply le_bind; [apply le_lt_step; assumption|intros [? ?]; apply le_refl].
  Qed.
End Weaker.
