(** The characters written by operator<< for AssembledConnections,
    AssembledConnections.cpp:465-487.

    The stream inserters of the standard library are modelled for a stream of the
    classic locale with field width zero and the flags it is born with (decimal
    integers, no plus sign, small letters), except for the float field and the
    precision, which operator<< sets.  Numbers come out as by printf with exact
    conversion: %.*e for std::scientific, %a for std::fixed | std::scientific. *)
From Coq Require Import Ascii.
From Coq.Floats Require Import SpecFloat.
From Verif.Model Require Import Base Num AssembledConnections.
Open Scope Z_scope.

(** The characters written, AssembledConnections.cpp:478. *)
Notation text := (list ascii).

(** A decimal or hexadecimal digit, AssembledConnections.cpp:478. *)
Definition digit (d : Z) : ascii := ascii_of_nat (Z.to_nat (if d <? 10 then 48 + d else 87 + d)).

(** Decimal digits of a number that is not negative, AssembledConnections.cpp:478. *)
Fixpoint put_digits (fuel : nat) (z : Z) : text :=
  match fuel with
  | O => []
  | S f => if z <? 10 then [digit z] else put_digits f (z / 10) ++ [digit (z mod 10)]
  end.
(** See [put_digits], AssembledConnections.cpp:478. *)
Definition put_nat (z : Z) : text := put_digits (S (Z.to_nat (Z.log2 z))) z.
(** os << cell, os << conn.neighbour, AssembledConnections.cpp:478. *)
Definition put_int (z : Z) : text := if z <? 0 then "-"%char :: put_nat (- z) else put_nat z.

(** a / b to the nearest integer, halves to even (AssembledConnections.cpp:478, conversion
    of a double). *)
Definition div_even (a b : Z) : Z :=
  let q := a / b in
  let r := a mod b in
  if 2 * r <? b then q else if b <? 2 * r then q + 1 else if Z.even q then q else q + 1.

(** 10^d <= a / b (AssembledConnections.cpp:478, conversion of a double). *)
Definition pow10_le (d a b : Z) : bool :=
  if 0 <=? d then 10 ^ d * b <=? a else b <=? a * 10 ^ (- d).
(** The decimal exponent of a / b: 10^d <= a / b < 10^(d+1) (AssembledConnections.cpp:478,
    conversion of a double). *)
Definition dec_exp (a b : Z) : Z :=
  let d := zlen (put_nat a) - zlen (put_nat b) in
  if pow10_le d a b then d else d - 1.
(** a / b as q * 10^(d - prec) with prec + 1 digits in q (AssembledConnections.cpp:478,
    conversion of a double). *)
Definition sci_round (prec a b : Z) : Z * Z :=
  let d := dec_exp a b in
  let q := if d <=? prec then div_even (a * 10 ^ (prec - d)) b else div_even a (b * 10 ^ (d - prec)) in
  if 10 ^ (prec + 1) <=? q then (10 ^ prec, d + 1) else (q, d).

(** Sign of a double (AssembledConnections.cpp:478). *)
Definition put_sign (s : bool) : text := if s then ["-"%char] else [].
(** Exponent of a double in decimal, at least two digits (AssembledConnections.cpp:478). *)
Definition put_exp (d : Z) : text :=
  "e"%char :: (if d <? 0 then "-"%char else "+"%char) ::
  (if Z.abs d <? 10 then ["0"%char] else []) ++ put_nat (Z.abs d).
(** Digits with a point after the first one (AssembledConnections.cpp:478). *)
Definition put_point (t : text) : text :=
  match t with
  | c :: (_ :: _) as rest => c :: "."%char :: List.tl t
  | _ => t
  end.
(** os << conn.weight with std::scientific, AssembledConnections.cpp:470-471 and :478. *)
Definition put_sci (prec : Z) (x : spec_float) : text :=
  match x with
  | S754_zero s => put_sign s ++ put_point (replicate (Z.to_nat (prec + 1)) "0"%char) ++ put_exp 0
  | S754_infinity s => put_sign s ++ ["i"%char; "n"%char; "f"%char]
  | S754_nan => ["n"%char; "a"%char; "n"%char]
  | S754_finite s m e =>
      let '(q, d) := if 0 <=? e then sci_round prec (Zpos m * 2 ^ e) 1 else sci_round prec (Zpos m) (2 ^ (- e)) in
      put_sign s ++ put_point (put_nat q) ++ put_exp d
  end.

(** [n] hexadecimal digits of a fraction of 4n bits, without trailing zeros
    (AssembledConnections.cpp:478). *)
Fixpoint put_hex_digits (n : nat) (z : Z) : text :=
  match n with
  | O => []
  | S n' => if z =? 0 then [] else digit (z / 16 ^ Z.of_nat n') :: put_hex_digits n' (z mod 16 ^ Z.of_nat n')
  end.
(** os << conn.weight with std::fixed | std::scientific: the precision is ignored
    (AssembledConnections.cpp:470-471 and :478). *)
Definition put_hex (x : spec_float) : text :=
  let exp z := "p"%char :: (if z <? 0 then "-"%char else "+"%char) :: put_nat (Z.abs z) in
  let frac z := if z =? 0 then [] else "."%char :: put_hex_digits 13 z in
  match x with
  | S754_zero s => put_sign s ++ ["0"%char; "x"%char; "0"%char] ++ exp 0
  | S754_infinity s => put_sign s ++ ["i"%char; "n"%char; "f"%char]
  | S754_nan => ["n"%char; "a"%char; "n"%char]
  | S754_finite s m e =>
      put_sign s ++ ["0"%char; "x"%char] ++
      (if 2 ^ 52 <=? Zpos m then "1"%char :: frac (Zpos m - 2 ^ 52) ++ exp (e + 52)
       else "0"%char :: frac (Zpos m) ++ exp (e + 52))
  end.

(** One record, AssembledConnections.cpp:478; [hex]: both bits of the float field are set. *)
Definition put_record (hex : bool) (prec : Z) (x : Z * Z * spec_float) : text :=
  put_int x.1.1 ++ " "%char :: put_int x.1.2 ++ " "%char ::
  (if hex then put_hex x.2 else put_sci prec x.2) ++ ["010"%char].

(** AssembledConnections.cpp:465-487, operator<<: what is appended to the stream, and its
    formatting state afterwards.  [fb] and [sb] are the bits of std::ios_base::fixed and
    std::ios_base::scientific, [born] the flags a stream is born with.  Streams with other
    flags than these are not modelled (UB stands for: nothing is known). *)
Definition ac_put (fb sb born : Z) (st : fmt) (g : @aconn b64) : res (text * fmt) :=
  if negb (Z.land (f_flags st) (Z.lnot (Z.lor (2 ^ fb) (2 ^ sb))) =? born) then UB else
  r ← ac_print (2 ^ sb) st g;
  let flags := Z.lor (f_flags st) (2 ^ sb) in
  Ok (concat (map (put_record (Z.testbit flags fb) 16) r.1), r.2).
