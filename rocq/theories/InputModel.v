(** Model of src/misc/input.rs, with the parts of std it calls: str::split_whitespace, i*/u*::from_str, str::bytes. *)
From Verif Require Import Prelude IntModel InputSpec.
Open Scope Z_scope.

(** std char::is_whitespace *)
Definition is_ws (c : Z) : bool :=
  (c =? 32) || ((9 <=? c) && (c <=? 13)) || (c =? 133) || (c =? 160) || (c =? 5760) || ((8192 <=? c) && (c <=? 8202)) ||
  (c =? 8232) || (c =? 8233) || (c =? 8239) || (c =? 8287) || (c =? 12288).

(** std str::Split: the text not yet split, or None when finished.  The piece up to the next separator. *)
Fixpoint cut (s : list Z) : list Z * option (list Z) :=
  match s with
  | [] => ([], None)
  | c :: s => if is_ws c then ([], Some s) else let '(w, r) := cut s in (c :: w, r)
  end.
(** input.rs:3-5  struct In { iter: SplitWhitespace }: the pieces that are not empty *)
Definition reader := option (list Z).
Definition next_step (st : reader) : res (reader + (option (list Z) * reader)) :=
  match st with
  | None => Ok (inr (None, None))
  | Some s => let '(w, r) := cut s in
      match w with [] => Ok (inl r) | _ :: _ => Ok (inr (Some w, r)) end
  end.
Definition in_next (st : reader) : res (option (list Z) * reader) :=
  rloop (2 + match st with Some s => length s | None => 0 end)%nat next_step st.

(** input.rs:7-11  new *)
Definition in_new (s : list Z) : reader := Some s.

(** input.rs:12-14  read: next().unwrap().parse().ok().unwrap() *)
Definition in_read {V} (parse : list Z -> option V) (st : reader) : res (V * reader) :=
  '(o, st) ← in_next st;
  w ← runwrap o;
  v ← runwrap (parse w);
  Ok (v, st).
(** input.rs:15-20  checked_read *)
Definition in_checked_read {V} (parse : list Z -> option V) (st : reader) : res (option V * reader) :=
  '(o, st) ← in_next st;
  match o with
  | Some x => v ← runwrap (parse x); Ok (Some v, st)
  | None => Ok (None, st)
  end.

(** std: the UTF-8 encoding of a character *)
Definition utf8 (c : Z) : list Z :=
  if c <? 128 then [c]
  else if c <? 2048 then [192 + c / 64; 128 + c mod 64]
  else if c <? 65536 then [224 + c / 4096; 128 + c / 64 mod 64; 128 + c mod 64]
  else [240 + c / 262144; 128 + c / 4096 mod 64; 128 + c / 64 mod 64; 128 + c mod 64].
(** input.rs:31-33  bytes *)
Definition in_bytes (st : reader) : res (list Z * reader) :=
  '(o, st) ← in_next st; w ← runwrap o; Ok (concat (map utf8 w), st).
(** input.rs:34-36  chars *)
Definition in_chars (st : reader) : res (list Z * reader) :=
  '(o, st) ← in_next st; w ← runwrap o; Ok (w, st).
(** input.rs:37-39  vec *)
Definition in_vec {V} (parse : list Z -> option V) (n : nat) (st : reader) : res (list V * reader) :=
  rfor (range 0 n) (fun _ acc => '(v, st) ← in_read parse acc.2; Ok (acc.1 ++ [v], st)) ([], st).

(** std: i*/u*::from_str, radix 10.  One digit with checked_mul, then checked_add (or checked_sub after a minus). *)
Definition parse_digit (T : ity) (positive : bool) (acc : option Z) (c : Z) : option Z :=
  match acc with
  | None => None
  | Some a =>
      if (48 <=? c) && (c <=? 57) then
        match chk T (a * 10) with
        | Ok b => match chk T (if positive then b + (c - 48) else b - (c - 48)) with Ok r => Some r | _ => None end
        | _ => None
        end
      else None
  end.
Definition parse_int (T : ity) (w : list Z) : option Z :=
  match w with
  | [] => None
  | c :: ds =>
      if ((c =? 43) || (c =? 45)) && match ds with [] => true | _ => false end then None
      else if c =? 43 then foldl (parse_digit T true) (Some 0) ds
      else if (c =? 45) && it_signed T then foldl (parse_digit T false) (Some 0) ds
      else foldl (parse_digit T true) (Some 0) (c :: ds)
  end.
(** input.rs:21-29  i32, i64, usize *)
Definition in_i32 (st : reader) : res (Z * reader) := in_read (parse_int i32) st.
Definition in_i64 (st : reader) : res (Z * reader) := in_read (parse_int i64) st.
Definition in_usize (st : reader) : res (Z * reader) := in_read (parse_int usize) st.
(** A sequence of calls of these methods. *)
Definition in_int (k : ikind) : reader -> res (Z * reader) := match k with KI32 => in_i32 | KI64 => in_i64 | KUsize => in_usize end.
Fixpoint in_ints (ks : list ikind) (st : reader) : res (list Z) :=
  match ks with
  | [] => Ok []
  | k :: ks => '(v, st) ← in_int k st; vs ← in_ints ks st; Ok (v :: vs)
  end.

(** One call. *)
Definition in_step {V} (st : reader) (o : in_op V) : res (reader * in_out V) :=
  match o with
  | InRead parse => '(v, st) ← in_read parse st; Ok (st, OutVal v)
  | InChecked parse => '(v, st) ← in_checked_read parse st; Ok (st, OutOpt v)
  | InBytes => '(v, st) ← in_bytes st; Ok (st, OutBytes v)
  | InChars => '(v, st) ← in_chars st; Ok (st, OutChars v)
  | InVec parse n => '(v, st) ← in_vec parse n st; Ok (st, OutVec v)
  end.
Close Scope Z_scope.
