(** What a user of the input reader relies on: the text is a list of words. *)
From Verif Require Import Prelude IntModel.
Open Scope Z_scope.

(** Characters are Unicode code points.  White_Space of the Unicode standard. *)
Definition white : list Z :=
  [9; 10; 11; 12; 13; 32; 133; 160; 5760; 8192; 8193; 8194; 8195; 8196; 8197; 8198; 8199; 8200; 8201; 8202; 8232; 8233; 8239; 8287; 12288].

(** [words s l]: l are the maximal substrings of s without white space, in order. *)
Inductive words : list Z -> list (list Z) -> Prop :=
| words_end ws : Forall (fun c => c ∈ white) ws -> words ws []
| words_cons ws w s l : Forall (fun c => c ∈ white) ws -> w <> [] -> Forall (fun c => c ∉ white) w ->
    (s = [] \/ exists c s', s = c :: s' /\ c ∈ white) -> words s l -> words (ws ++ w ++ s) (w :: l).

(** The decimal value of a string of digits. *)
Definition decimal (ds : list Z) : Z := foldl (fun a c => 10 * a + (c - 48)) 0 ds.
(** [numeral T w v]: w is a decimal numeral with value v in the range of T: digits, after an optional + or, for the
    signed types, -. *)
Definition numeral (T : ity) (w : list Z) (v : Z) : Prop :=
  exists sign ds, w = sign ++ ds /\ ds <> [] /\ Forall (fun c => 48 <= c <= 57) ds /\ in_ty T v /\
    ((sign = [] \/ sign = [43]) /\ v = decimal ds \/ sign = [45] /\ it_signed T = true /\ v = - decimal ds).

(** [utf8_bytes c bs]: bs is the UTF-8 form of the code point c (table 3-6 of the Unicode standard):
    lead byte and continuation bytes 10xxxxxx carry the bits of c, in as few bytes as possible. *)
Definition cont (b : Z) : Prop := 0 <= b < 64.
Inductive utf8_bytes : Z -> list Z -> Prop :=
| utf8_1 c : 0 <= c < 2 ^ 7 -> utf8_bytes c [c]
| utf8_2 a b : 2 ^ 7 <= 2 ^ 6 * a + b < 2 ^ 11 -> cont b -> utf8_bytes (2 ^ 6 * a + b) [192 + a; 128 + b]
| utf8_3 a b d : 2 ^ 11 <= 2 ^ 12 * a + 2 ^ 6 * b + d < 2 ^ 16 -> cont b -> cont d ->
    utf8_bytes (2 ^ 12 * a + 2 ^ 6 * b + d) [224 + a; 128 + b; 128 + d]
| utf8_4 a b d e : 2 ^ 16 <= 2 ^ 18 * a + 2 ^ 12 * b + 2 ^ 6 * d + e < 2 ^ 21 -> cont b -> cont d -> cont e ->
    utf8_bytes (2 ^ 18 * a + 2 ^ 12 * b + 2 ^ 6 * d + e) [240 + a; 128 + b; 128 + d; 128 + e].

(** The three methods that read an integer. *)
Inductive ikind := KI32 | KI64 | KUsize.
Definition kty (k : ikind) : ity := match k with KI32 => i32 | KI64 => i64 | KUsize => usize end.

(** Calls on the reader; the parser of the element type is an argument. *)
Inductive in_op (V : Type) :=
| InRead (parse : list Z -> option V)
| InChecked (parse : list Z -> option V)
| InBytes
| InChars
| InVec (parse : list Z -> option V) (n : nat).
Arguments InRead {V}. Arguments InChecked {V}. Arguments InBytes {V}. Arguments InChars {V}. Arguments InVec {V}.
Inductive in_out (V : Type) :=
| OutVal (v : V) | OutOpt (v : option V) | OutBytes (l : list Z) | OutChars (l : list Z) | OutVec (l : list V).
Arguments OutVal {V}. Arguments OutOpt {V}. Arguments OutBytes {V}. Arguments OutChars {V}. Arguments OutVec {V}.

(** The effect of a call on the list of words not yet read. *)
Definition in_spec_step {V} (utf8 : Z -> list Z) (l : list (list Z)) (o : in_op V) : res (list (list Z) * in_out V) :=
  match o with
  | InRead parse => match l with w :: l => match parse w with Some v => Ok (l, OutVal v) | None => Panic end | [] => Panic end
  | InChecked parse => match l with w :: l => match parse w with Some v => Ok (l, OutOpt (Some v)) | None => Panic end | [] => Ok ([], OutOpt None) end
  | InBytes => match l with w :: l => Ok (l, OutBytes (concat (map utf8 w))) | [] => Panic end
  | InChars => match l with w :: l => Ok (l, OutChars w) | [] => Panic end
  | InVec parse n => if (n <=? length l)%nat then match mapM parse (take n l) with Some vs => Ok (drop n l, OutVec vs) | None => Panic end else Panic
  end.
Close Scope Z_scope.
