(** Reading hexadecimal numbers, as written by printf with %a. *)
From Coq Require Import Ascii QArith.
From Coq.Floats Require Import SpecFloat.
From Verif.Model Require Import Base Num.
From Verif.Spec Require Export TextSpec.
Open Scope Z_scope.

Definition hexdigit_of (c : ascii) : option Z :=
  match digit_of c with
  | Some d => Some d
  | None => let n := Z.of_nat (nat_of_ascii c) in if (97 <=? n) && (n <=? 102) then Some (n - 87) else None
  end.
Fixpoint read_hexdigits (acc : Z) (t : text) : option Z :=
  match t with
  | [] => Some acc
  | c :: t' => match hexdigit_of c with Some d => read_hexdigits (16 * acc + d) t' | None => None end
  end.
(** 0x, digits, a point, digits, p, exponent of two. *)
Definition read_hex (t : text) : option Q :=
  match t with
  | a :: b :: t' =>
      if ascii_dec a "0" then if ascii_dec b "x" then
        let '(m, e) := cut "p" t' in
        let '(i, f) := cut "." m in
        match read_hexdigits 0 (i ++ f), read_int e with
        | Some n, Some k => Some (inject_Z n * (inject_Z 2) ^ (k - 4 * zlen f))%Q
        | _, _ => None
        end
      else None else None
  | _ => None
  end.
Definition read_hexnum (t : text) : option (bool * Q) :=
  match t with
  | c :: t' => if ascii_dec c "-" then option_map (pair true) (read_hex t') else option_map (pair false) (read_hex t)
  | [] => None
  end.
(** The text gives the sign and the exact value of a finite double. *)
Definition exactly_hex (w : text) (x : spec_float) : Prop :=
  ∃ q, read_hexnum w = Some (sign_of x, q) ∧ (signed (sign_of x, q) == float_value x)%Q.
