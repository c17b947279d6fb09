(** The Mersenne twister as a sequence of numbers, and fair ways of making small
    numbers of its words. *)
From Coq Require Import ZArith QArith Qcanon.
From stdpp Require Import base list list_numbers.
Open Scope Z_scope.

(** Words of 32 bits. *)
Definition word (z : Z) : Prop := 0 ≤ z < 2 ^ 32.
(** The sequence of the C++ standard, [rand.eng.mers], with the parameters and the
    default seed of std::mt19937. *)
Record mersenne (x : nat → Z) : Prop := {
  ms_seed : x O = 5489;
  ms_init : ∀ i, (i < 623)%nat →
    x (S i) = (1812433253 * Z.lxor (x i) (x i / 2 ^ 30) + Z.of_nat (S i)) mod 2 ^ 32;
  ms_next : ∀ i, let y := x i / 2 ^ 31 * 2 ^ 31 + x (i + 1)%nat mod 2 ^ 31 in
    x (i + 624)%nat = Z.lxor (x (i + 397)%nat) (Z.lxor (y / 2) (if Z.odd y then 2567483615 else 0))
}.
(** The word that is delivered for a term of the sequence. *)
Definition tempered (x : Z) : Z :=
  let a := Z.lxor x (x / 2 ^ 11) in
  let b := Z.lxor a (Z.land (a * 2 ^ 7) 2636928640) in
  let c := Z.lxor b (Z.land (b * 2 ^ 15) 4022730752) in
  Z.lxor c (c / 2 ^ 18).

(** A way of making numbers below [r] of words is fair if every number is made of
    as many words as any other, and few words are rejected. *)
Definition made_of (pick : Z → option Z) (v : Z) : list Z := filter (λ w, pick w = Some v) (seqZ 0 (2 ^ 32)).
Record fair (r : Z) (pick : Z → option Z) : Prop := {
  fa_range : ∀ w v, word w → pick w = Some v → 0 ≤ v < r;
  fa_equal : ∃ q : nat, ∀ v, 0 ≤ v < r → length (made_of pick v) = q;
  fa_most : ∀ v, 0 ≤ v < r → 2 ^ 31 ≤ r * Z.of_nat (length (made_of pick v))
}.
(** Words in groups of four. *)
Fixpoint fours (ws : list Z) : list (Z * Z * (Z * Z)) :=
  match ws with
  | w0 :: w1 :: w2 :: w3 :: ws' => (w0, w1, (w2, w3)) :: fours ws'
  | _ => []
  end.
(** The numbers of pairs, one after the other. *)
Definition unpair {A} (l : list (A * A)) : list A := concat (map (λ d, [d.1; d.2]) l).
(** The fraction that two words stand for. *)
Definition fraction (w0 w1 : Z) : Qc := Q2Qc ((w0 + 2 ^ 32 * w1) # (2 ^ 64)).
(** A coordinate between -1 and 1. *)
Definition coordinate (w0 w1 : Z) : Qc := (Q2Qc 2 * fraction w0 w1 - 1)%Qc.
