(** Systems of congruences a x = b (mod m) as lists of (a, b, m). *)
From Verif Require Import Prelude.

Notation cgr := (Z * Z * Z)%type.
Definition coefs (l : list cgr) : list Z := map (fun c => c.1.1) l.
Definition rests (l : list cgr) : list Z := map (fun c => c.1.2) l.
Definition moduli (l : list cgr) : list Z := map (fun c => c.2) l.
