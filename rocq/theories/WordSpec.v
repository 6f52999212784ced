(** Calls and answers with every value replaced. *)
From Verif Require Import Prelude SegtreeSpec FenwickSpec LazySpec.

Definition sg_op_map {A B} (h : A -> B) (o : sg_op A) : sg_op B :=
  match o with SgSet p x => SgSet p (h x) | SgGet p => SgGet p | SgProd l r => SgProd l r | SgAllProd => SgAllProd end.
Definition sg_out_map {A B} (h : A -> B) (o : sg_out A) : sg_out B := match o with SgUnit => SgUnit | SgVal x => SgVal (h x) end.
Definition fw_op_map {A B} (h : A -> B) (o : fw_op A A) : fw_op B B :=
  match o with FwAdd i u => FwAdd i (h u) | FwPref i => FwPref i | FwSum l r => FwSum l r end.
Definition fw_out_map {A B} (h : A -> B) (o : fw_out A) : fw_out B := match o with FwUnit => FwUnit | FwVal x => FwVal (h x) end.
Definition lz_op_map {A B F G} (h : A -> B) (hf : F -> G) (o : lz_op A F) : lz_op B G :=
  match o with
  | LzSet p x => LzSet p (h x) | LzGet p => LzGet p | LzProd l r => LzProd l r | LzAllProd => LzAllProd
  | LzApply p f => LzApply p (hf f) | LzApplyRange l r f => LzApplyRange l r (hf f)
  | LzMaxRight l _ => LzMaxRight l (fun _ => false) | LzMinLeft r _ => LzMinLeft r (fun _ => false)
  end.
Definition lz_out_map {A B} (h : A -> B) (o : lz_out A) : lz_out B := match o with LzUnit => LzUnit | LzVal x => LzVal (h x) | LzIdx i => LzIdx i end.
