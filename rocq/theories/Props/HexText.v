(** Property C82, on streams that were set to std::fixed: operator<< then writes
    hexadecimal numbers, AssembledConnections.cpp:465-487, and these are exact. *)
From Coq Require Import Ascii String QArith.
From Coq.Floats Require Import SpecFloat.
From Verif.Model Require Import Base Num AssembledConnections Text.
From Verif.Spec Require Import GraphSpec TextSpec HexSpec.
From Verif.Proofs Require Import OrdLaws B64Laws AConn GraphProps Text HexText.
From Verif.Props Require Import Text.
Open Scope Z_scope.

(** One number: a reader of hexadecimal numbers gets the sign and exactly the value. *)
Theorem C82_hex_number (x : spec_float) : valid64 x → finite_float x → exactly_hex (put_hex x) x.
Proof. apply hex_exact. Qed.
(** No such text is that of two doubles. *)
Theorem C82_hex_unique (w : text) (x y : spec_float) :
  valid64 x → valid64 y → finite_float x → finite_float y → exactly_hex w x → exactly_hex w y → x = y.
Proof. apply exactly_hex_inj. Qed.
(** A whole graph. *)
Theorem C82_hex_text (l : list (@connection b64)) (n fb sb born : Z) (st : fmt) :
  weighted l → indices_ok l → 0 ≤ n < 2 ^ 31 →
  Forall (λ x : @connection b64, x.1.1 < n) l →
  Forall (λ x : @connection b64, ∀ w, x.2 = Some w → valid64 w) l →
  stream_flags fb sb born →
  f_flags st = Z.lor born (2 ^ fb) ∨ f_flags st = Z.lor (Z.lor born (2 ^ fb)) (2 ^ sb) →
  ∃ g (cols : Z → list Z) (w : Z → Z → text) t st',
    ac_compress (add_all ac_new l) n = Ok (g, None) ∧ ac_put fb sb born st g = Ok (t, st') ∧
    read_matrix t = Some (seqZ 0 n ≫= (λ r, map (λ c, (r, c, w r c)) (cols r))) ∧
    (∀ r, 0 ≤ r < n → StronglySorted Z.lt (cols r) ∧ ∀ c, c ∈ cols r ↔ (r, c) ∈ map fst l) ∧
    (∀ r c, finite_float (sum_left (weights_at l r c)) → exactly_hex (w r c) (sum_left (weights_at l r c))).
Proof. apply text_hex. Qed.

(** ** Cases *)
Definition least : spec_float := S754_finite false 1 (-1074).
Definition largest : spec_float := S754_finite true 9007199254740991 971.
Example C82_hex_written : put_hex three_halves = str "-0x1.8p+0" ∧ put_hex tenth = str "0x1.999999999999ap-4" ∧
  put_hex least = str "0x0.0000000000001p-1022" ∧ put_hex largest = str "-0x1.fffffffffffffp+1023".
Proof. vm_compute. done. Qed.
Example C82_hex_ex : exactly_hex (str "0x0.0000000000001p-1022") least ∧ exactly_hex (str "-0x1.fffffffffffffp+1023") largest.
Proof.
  destruct C82_hex_written as (_ & _ & E1 & E2). rewrite <-E1, <-E2. split; (apply C82_hex_number; [reflexivity|exact I]).
Qed.
(** The stream of the example of C82_fixed. *)
Definition C82_hex_ex_text := C82_hex_text ex_conns 2 2 8 4098 ex_fixed (proj1 C82_conns) (proj1 (proj2 C82_conns)) ltac:(lia)
  (proj1 (proj2 (proj2 C82_conns))) (proj2 (proj2 (proj2 C82_conns))) C82_flags (or_introl eq_refl).

Print Assumptions C82_hex_number.
Print Assumptions C82_hex_unique.
Print Assumptions C82_hex_text.
