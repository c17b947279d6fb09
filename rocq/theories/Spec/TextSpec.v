(** Reading a matrix back from text. *)
From Coq Require Import Ascii QArith Qabs.
From Coq.Floats Require Import SpecFloat.
From Verif.Model Require Import Base Num.
Open Scope Z_scope.

Notation text := (list ascii).

(** ** Numbers *)
Definition digit_of (c : ascii) : option Z :=
  let n := Z.of_nat (nat_of_ascii c) in if (48 <=? n) && (n <=? 57) then Some (n - 48) else None.
Fixpoint read_digits (acc : Z) (t : text) : option Z :=
  match t with
  | [] => Some acc
  | c :: t' => match digit_of c with Some d => read_digits (10 * acc + d) t' | None => None end
  end.
Definition read_nat (t : text) : option Z := match t with [] => None | _ => read_digits 0 t end.
Definition read_int (t : text) : option Z :=
  match t with
  | c :: t' => if ascii_dec c "-" then option_map Z.opp (read_nat t')
               else if ascii_dec c "+" then read_nat t' else read_nat t
  | [] => None
  end.

(** The text before the first [c], and the text after it. *)
Fixpoint cut (c : ascii) (t : text) : text * text :=
  match t with
  | [] => ([], [])
  | x :: t' => if ascii_dec x c then ([], t') else (x :: (cut c t').1, (cut c t').2)
  end.
(** Digits, a point, digits, e, exponent: the number that is written. *)
Definition read_dec (t : text) : option Q :=
  let '(m, e) := cut "e" t in
  let '(i, f) := cut "." m in
  match read_nat (i ++ f), read_int e with
  | Some n, Some k => Some (inject_Z n * (inject_Z 10) ^ (k - zlen f))%Q
  | _, _ => None
  end.
(** The same with a sign: whether there is a minus, and the number without it. *)
Definition read_num (t : text) : option (bool * Q) :=
  match t with
  | c :: t' => if ascii_dec c "-" then option_map (pair true) (read_dec t') else option_map (pair false) (read_dec t)
  | [] => None
  end.
Definition signed (x : bool * Q) : Q := if x.1 then Qopp x.2 else x.2.

(** ** Doubles *)
Definition valid64 (x : spec_float) : Prop := valid_binary 53 1024 x = true.
Definition finite_float (x : spec_float) : Prop := match x with S754_zero _ | S754_finite _ _ _ => True | _ => False end.
Definition sign_of (x : spec_float) : bool :=
  match x with S754_zero s | S754_infinity s | S754_finite s _ _ => s | S754_nan => false end.
(** The number a finite double stands for. *)
Definition float_value (x : spec_float) : Q :=
  match x with
  | S754_finite s m e => (inject_Z (if s then Zneg m else Zpos m) * (inject_Z 2) ^ e)%Q
  | _ => 0%Q
  end.
(** [x] is nearer to [q] than any other double: who reads [q] and rounds to nearest gets [x],
    whatever happens to ties. *)
Definition nearest (x : spec_float) (q : Q) : Prop :=
  ∀ y, valid64 y → finite_float y → ¬ (float_value y == float_value x)%Q →
    (Qabs (float_value x - q) < Qabs (float_value y - q))%Q.

(** The text stands for the double: sign and number for a finite one. *)
Definition stands_for (w : text) (x : spec_float) : Prop :=
  match x with
  | S754_infinity s => w = (if s then ["-"; "i"; "n"; "f"] else ["i"; "n"; "f"])%char
  | S754_nan => w = ["n"; "a"; "n"]%char
  | _ => ∃ q, read_num w = Some (sign_of x, q) ∧ nearest x (signed (sign_of x, q))
  end.
(** A hexadecimal number, which a reader of decimal numbers does not take. *)
Definition hexadecimal (w : text) (s : bool) : Prop :=
  (∃ w', w = (if s then ["-"%char] else []) ++ "0"%char :: "x"%char :: w') ∧ read_num w = None.

(** ** Streams: the bits of std::fixed and std::scientific, and the flags of a new stream *)
Definition stream_flags (fb sb born : Z) : Prop :=
  0 ≤ fb ∧ 0 ≤ sb ∧ fb ≠ sb ∧ Z.testbit born fb = false ∧ Z.testbit born sb = false.

(** ** Lines *)
Fixpoint fields (c : ascii) (t : text) : list text :=
  match t with
  | [] => [[]]
  | x :: t' => if ascii_dec x c then [] :: fields c t'
               else match fields c t' with f :: fs => (x :: f) :: fs | [] => [[x]] end
  end.
(** Row, column, and the text of the weight. *)
Definition read_line (t : text) : option (Z * Z * text) :=
  match fields " " t with
  | [a; b; w] => match read_int a, read_int b with Some r, Some c => Some (r, c, w) | _, _ => None end
  | _ => None
  end.
(** Every line ends with a line break. *)
Fixpoint read_lines (ls : list text) : option (list (Z * Z * text)) :=
  match ls with
  | [] => None
  | [l] => match l with [] => Some [] | _ => None end
  | l :: ls' => match read_line l, read_lines ls' with Some x, Some xs => Some (x :: xs) | _, _ => None end
  end.
Definition read_matrix (t : text) : option (list (Z * Z * text)) := read_lines (fields "010" t).
