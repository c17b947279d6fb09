(** Vocabulary for the F-Phi curve, the Lorenz coefficient and sweep efficiency:
    no reference to the code of DerivedQuantities.cpp. *)
From Coq Require Import QArith Qcanon.
From stdpp Require Export base list sorting.
From Verif.Model Require Import Num.
Open Scope Z_scope.

Section any_num.
  Context {N : Num}.
  (** Lexicographic order of pairs. *)
  Definition lex_lt (a b : num * num) : bool :=
    nltb a.1 b.1 || (negb (nltb b.1 a.1) && nltb a.2 b.2).
  Definition no_nan (p : num * num) : Prop := nisnan p.1 = false ∧ nisnan p.2 = false.
  (** What std::sort guarantees: a sorted permutation of any list without NaN. *)
  Definition sorting (srt : list (num * num) → list (num * num)) : Prop :=
    ∀ l, Forall no_nan l →
      srt l ≡ₚ l ∧ StronglySorted (λ a b, lex_lt b a = false) (srt l).
  (** A coordinate sequence from 0 to 1 that never decreases. *)
  Definition unit_ramp (x : list num) : Prop :=
    (∃ a, x !! O = Some a ∧ neqb a n0 = true) ∧
    (∃ b, last x = Some b ∧ neqb b n1 = true) ∧
    ∀ i j a b, (i ≤ j)%nat → x !! i = Some a → x !! j = Some b → nleb a b = true.
End any_num.

(** ** Exact arithmetic: lists of rationals *)
(** Rationals as values of the exact instance. *)
Definition fins (x : list Qc) : list (@num exact) := Fin <$> x.
Definition qsum (l : list Qc) : Qc := foldr Qcplus 0%Qc l.

(** The cell survives the pore-volume cut-off. *)
Definition kept (pv : list Qc) (f v : Qc) : Prop := (v <= f * qsum pv)%Qc.

#[global] Instance kept_dec pv f v : Decision (kept pv f v) := decide (v <= f * qsum pv)%Qc.
(** The cells that survive, as (injector tof, producer tof, pore volume). *)
Definition survivors (itof ptof pv : list Qc) (f : Qc) : list (Qc * Qc * Qc) :=
  filter (λ x, kept pv f x.2) (zip (zip itof ptof) pv).

(** The sequence with element [e] occurring [m] more times. *)
Definition stutter (e m : nat) (x : list Qc) : list Qc :=
  take (S e) x ++ replicate m (nth e x 0%Qc) ++ drop (S e) x.

(** Admissible input: equally long fields, no negative pore volume, positive
    travel time in every cell that counts, and some pore volume that counts. *)
Record fphi_input (itof ptof pv : list Qc) (f : Qc) : Prop := {
  fi_itof : length itof = length pv;
  fi_ptof : length ptof = length pv;
  fi_size : Z.of_nat (length pv) + 1 < 2 ^ 31;
  fi_pv : Forall (λ v, (0 <= v)%Qc) pv;
  fi_time : ∀ i a b v, itof !! i = Some a → ptof !! i = Some b → pv !! i = Some v →
    kept pv f v → (0 < a + b)%Qc;
  fi_some : ∃ v, v ∈ pv ∧ (0 < v)%Qc ∧ kept pv f v
}.

(** Concave: of two adjacent chords the right one is not steeper. *)
Definition concave (x y : list Qc) : Prop :=
  ∀ i j k xi xj xk yi yj yk, (i < j)%nat → (j < k)%nat →
    x !! i = Some xi → x !! j = Some xj → x !! k = Some xk →
    y !! i = Some yi → y !! j = Some yj → y !! k = Some yk →
    ((yk - yj) * (xj - xi) <= (yj - yi) * (xk - xj))%Qc.

Definition non_decreasing (x : list Qc) : Prop :=
  ∀ i j a b, (i ≤ j)%nat → x !! i = Some a → x !! j = Some b → (a <= b)%Qc.
