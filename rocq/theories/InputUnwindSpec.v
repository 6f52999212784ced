(** Reading from a list of words when panics are caught: a word that cannot be parsed is gone all the same. *)
From Verif Require Import Prelude IntModel InputSpec.

(** The words before a call, the call, its result (None: it unwound), the words left. *)
Inductive in_after_step {V} (utf8 : Z -> list Z) : list (list Z) -> in_op V -> option (in_out V) -> list (list Z) -> Prop :=
| ia_read parse w l : in_after_step utf8 (w :: l) (InRead parse) (OutVal <$> parse w) l
| ia_read_end parse : in_after_step utf8 [] (InRead parse) None []
| ia_checked parse w l : in_after_step utf8 (w :: l) (InChecked parse) (OutOpt ∘ Some <$> parse w) l
| ia_checked_end parse : in_after_step utf8 [] (InChecked parse) (Some (OutOpt None)) []
| ia_bytes w l : in_after_step utf8 (w :: l) InBytes (Some (OutBytes (concat (map utf8 w)))) l
| ia_bytes_end : in_after_step utf8 [] InBytes None []
| ia_chars w l : in_after_step utf8 (w :: l) InChars (Some (OutChars w)) l
| ia_chars_end : in_after_step utf8 [] InChars None []
| ia_vec parse ws vs l : Forall2 (fun w v => parse w = Some v) ws vs ->
    in_after_step utf8 (ws ++ l) (InVec parse (length ws)) (Some (OutVec vs)) l
| ia_vec_bad parse ws vs w l n : Forall2 (fun w v => parse w = Some v) ws vs -> parse w = None -> length ws < n ->
    in_after_step utf8 (ws ++ w :: l) (InVec parse n) None l
| ia_vec_end parse ws vs n : Forall2 (fun w v => parse w = Some v) ws vs -> length ws < n ->
    in_after_step utf8 ws (InVec parse n) None [].

Inductive in_after {V} (utf8 : Z -> list Z) : list (list Z) -> list (in_op V) -> list (option (in_out V)) -> Prop :=
| ian_nil l : in_after utf8 l [] []
| ian_cons l o out l' ops outs : in_after_step utf8 l o out l' -> in_after utf8 l' ops outs -> in_after utf8 l (o :: ops) (out :: outs).
