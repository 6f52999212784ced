(** Search for composite numbers below 2^31 that pass the strong test to bases 2, 7 and 61, in machine integers.
    The functions are proved sound in PspSound.v and run in PspRun.v.  They are no part of the library's model. *)
From Coq Require Import Uint63 List.
Import ListNotations.
Open Scope uint63_scope.
Open Scope bool_scope.

Definition N31 : int := 2147483648.
Definition Sq : int := 46341.     (* Sq^2 > N31 *)
Definition Bd : int := 2048.      (* small primes are below Bd *)
Definition Md : int := 1024.      (* certificates are used below Md *)
Definition Tc : int := 10.        (* a node with at most this many candidates is enumerated *)

(** acc * a^e mod n *)
Fixpoint powm (f : nat) (n a e acc : int) : int :=
  match f with
  | O => acc
  | S f =>
      if e =? 0 then acc
      else powm f n (a * a mod n) (e / 2) (if e mod 2 =? 0 then acc else acc * a mod n)
  end.
Definition pw (n a e : int) : int := powm 32 n a e 1.

(** The strong test with exponent e. *)
Fixpoint stl (f : nat) (n a e : int) : bool :=
  match f with
  | O => true
  | S f =>
      let x := pw n a e in
      if x =? n - 1 then true
      else if x =? 1 then (if e mod 2 =? 0 then stl f n a (e / 2) else true)
      else false
  end.
Definition strong3 (n : int) : bool :=
  let e := (n - 1) / 2 in stl 32 n 2 e && (stl 32 n 7 e && stl 32 n 61 e).

(** 2^k rounds of f. *)
Fixpoint loop {A R} (k : nat) (f : A -> A + R) (a : A) : A + R :=
  match k with
  | O => f a
  | S k => match loop k f a with inl a => loop k f a | inr r => inr r end
  end.
(** t holds at c, c + s, ..., up to hi. *)
Definition enum (t : int -> bool) (c s hi : int) : bool :=
  match loop 22 (fun c => if hi <? c then inr true else if t c then inl (c + s) else inr false) c with
  | inl _ => false
  | inr b => b
  end.

(** A proper odd factor of q, or 0. *)
Fixpoint find_factor (f : nat) (q r : int) : int :=
  match f with
  | O => 0
  | S f => if q <? r * r then 0 else if q mod r =? 0 then r else find_factor f q (r + 2)
  end.
Definition composite (q : int) : bool :=
  let r := find_factor 110 q 3 in (1 <? r) && ((r <? q) && (q mod r =? 0)).

(** 2^m = 7^m = 61^m = 1 modulo q *)
Definition e3 (q m : int) : bool := (pw q 2 m =? 1) && ((pw q 7 m =? 1) && (pw q 61 m =? 1)).

(** The least exponent h: start with q - 1 and cancel primes r of the rest m. *)
Fixpoint cancel (f : nat) (q r m h : int) : int :=
  match f with
  | O => h
  | S f =>
      if m <? r * r then (if (1 <? m) && e3 q (h / m) then h / m else h)
      else if m mod r =? 0 then cancel f q r (m / r) (if e3 q (h / r) then h / r else h)
      else cancel f q (r + 1) m h
  end.
Definition hq (q : int) : int := cancel 300 q 2 (q - 1) (q - 1).
(** No h / r is an exponent, r a prime factor of m, all of them being at least r. *)
Fixpoint minimal (f : nat) (q h r m : int) : bool :=
  match f with
  | O => false
  | S f =>
      if m <? r * r then (if 1 <? m then negb (e3 q (h / m)) else true)
      else if m mod r =? 0 then negb (e3 q (h / r)) && minimal f q h r (m / r)
      else minimal f q h (r + 1) m
  end.
Definition okh (q h : int) : bool := (0 <? h) && ((h <? q) && (e3 q h && minimal 300 q h 2 h)).

(** Numbers with a prime factor q in [Bd, Sq]: n = q c with c = 1 modulo h. *)
Definition case1_q (q : int) : bool :=
  composite q || (let h := hq q in okh q h && enum (fun c => negb (strong3 (q * c))) (1 + h) h (N31 / q)).
Definition case1 : bool := enum case1_q (Bd + 1) 2 Sq.

(** The small primes with their h. *)
Fixpoint mk_small (f : nat) (q : int) : list (int * int) :=
  match f with
  | O => []
  | S f => if composite q || ((q =? 7) || (q =? 61)) then mk_small f (q - 2) else (q, hq q) :: mk_small f (q - 2)
  end.
Definition small : list (int * int) := Eval vm_compute in mk_small 1023 2047.
(** q^2 does not divide a number passing the tests. *)
Definition nosq (q : int) : bool := negb (pw (q * q) 2 (q - 1) =? 1) || negb (pw (q * q) 7 (q - 1) =? 1).
Definition ok_small (qh : int * int) : bool :=
  let (q, h) := qh in (2 <? q) && ((q <? Bd) && (okh q h && nosq q)).
Definition is_small (q : int) : bool := existsb (fun qh => fst qh =? q) small.
Definition small_ok : bool :=
  forallb ok_small small && enum (fun q => composite q || ((q =? 7) || ((q =? 61) || is_small q))) 3 2 Bd.

(** The inverse of d modulo L, by Euclid; the result is checked where it is used. *)
Fixpoint inv_rec (f : nat) (L a b x y : int) : int :=
  match f with
  | O => x
  | S f => if b =? 0 then x else inv_rec f L b (a mod b) y ((x + (L - (a / b) mod L) * y) mod L)
  end.
Definition inv (d L : int) : int := inv_rec 64 L (d mod L) L 1 0.
(** The first number from lo on that is d^-1 modulo L. *)
Definition start (d L lo : int) : int := let c := inv d L in c + ((lo + L - 1 - c mod L) / L) * L - (if c <? L then 0 else L).

(** Numbers n = d p with p >= Sq prime. *)
Definition reject (d p : int) : bool :=
  (p mod 3 =? 0) || ((p mod 5 =? 0) || ((p mod 7 =? 0) || ((p mod 11 =? 0) || ((p mod 13 =? 0) ||
  (negb (pw p 2 (d - 1) =? 1) || negb (strong3 (d * p))))))).
(** A test for every c with d c = 1 modulo L and lo <= c <= N31 / d. *)
Definition cofactors (t : int -> bool) (d L lo : int) : bool :=
  let c0 := start d L lo in
  (0 <? L) && ((L <? N31) && ((c0 <? lo + L) && (((c0 mod L) * (d mod L) mod L =? 1) && enum t c0 L (N31 / d)))).

Section Dfs.
  (** d below Md for which [cert d] holds needs no enumeration *)
  Context (cert : int -> bool).
  Definition node (first : bool) (d L : int) : bool :=
    (first || negb (strong3 d)) &&
    (if d <? Md then cert d else cofactors (reject d) d L Sq).
  Fixpoint go (d L : int) (ps : list (int * int)) : bool :=
    match ps with
    | [] => true
    | (q, h) :: ps =>
        (let d' := d * q in
         if N31 <? d' then true
         else
           let L' := L / gcd L h * h in
           if N31 <=? L' then true
           else if negb (gcd d' L' =? 1) then true
           else if N31 / d' <=? Tc * L' then cofactors (fun c => negb (strong3 (d' * c))) d' L' 1
           else node (d =? 1) d' L' && go d' L' ps) && go d L ps
    end.
End Dfs.

(** ** Certificates for n = k p, k < Md, p >= Sq prime.
    Such a p divides 2^m - 1 and 7^m - 1 for m = k - 1.  A certificate shows that
    v (7^m - 1) - w (2^m - 1) is a product of small numbers.  Numbers are lists of 31-bit limbs. *)
Fixpoint mul1 (l : list int) (k c : int) : list int :=
  match l with
  | [] => [c]
  | x :: l => let t := x * k + c in t mod N31 :: mul1 l k (t / N31)
  end.
Fixpoint addl (a b : list int) (c : int) : list int :=
  match a, b with
  | [], _ => mul1 b 1 c
  | _, [] => mul1 a 1 c
  | x :: a, y :: b => let t := x + y + c in t mod N31 :: addl a b (t / N31)
  end.
Fixpoint mull (a b : list int) : list int :=
  match a with
  | [] => []
  | x :: a => addl (mul1 b x 0) (0 :: mull a b) 0
  end.
Definition allz (l : list int) : bool := forallb (fun x => x =? 0) l.
Fixpoint eql (a b : list int) : bool :=
  match a, b with
  | [], _ => allz b
  | _, [] => allz a
  | x :: a, y :: b => (x =? y) && eql a b
  end.
Definition limbs (l : list int) : bool := forallb (fun x => x <? N31) l.
Definition prodl (fs : list int) : list int := fold_right (fun f l => mul1 l f 0) [1] fs.

Definition pcert : Type := int * list int * list int * list int.
Definition cert_k (c : pcert) : int := fst (fst (fst c)).
(** A factor is below Sq, or k f fails the tests and f is too small to have a proper prime factor above Sq. *)
Definition ok_factor (k f : int) : bool :=
  (0 <? f) && ((f <? Sq) || ((f <? 5 * Sq) && (negb (f mod 2 =? 0) && (negb (f mod 3 =? 0) && negb (strong3 (k * f)))))).
Definition check_cert (A B : list int) (c : pcert) : bool :=
  let '(k, v, w, fs) := c in
  limbs v && (limbs w && (forallb (ok_factor k) fs &&
  eql (addl (mull v A) w 0) (addl (addl v (prodl fs) 0) (mull w B) 0))).
(** A = 7^m and B = 2^m *)
Fixpoint check_certs (f : nat) (m : int) (A B : list int) (l : list pcert) : bool :=
  match l with
  | [] => true
  | c :: l' =>
      match f with
      | O => false
      | S f =>
          if cert_k c =? m + 1 then check_cert A B c && check_certs f (m + 2) (mul1 A 49 0) (mul1 B 4 0) l'
          else check_certs f (m + 2) (mul1 A 49 0) (mul1 B 4 0) l
      end
  end.
Definition certs_ok (l : list pcert) : bool := check_certs 512 2 [49] [4] l.
Definition has_cert (ks : list int) (d : int) : bool := existsb (fun k => k =? d) ks.
Close Scope uint63_scope.
