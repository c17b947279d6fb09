(** The cells behind an F-Phi curve that is computed with doubles. *)
From Coq Require Import QArith Qcanon.
From Coq.QArith Require Qcabs.
From Verif.Model Require Import Num.
From Verif.Spec Require Export GiniSpec AccuracySpec.
Open Scope Z_scope.

(** The number a finite double stands for. *)
Definition rational (x : @num b64) : Qc := match q_of x with Fin q => q | _ => 0%Qc end.
(** Zero or positive of ordinary size. *)
Definition plain (x : @num b64) : Prop := q_of x = Fin 0%Qc ∨ sized (-100) 100 (q_of x).
(** What is assumed of the times-of-flight from the injectors, of those to the
    producers, and of the pore volumes. *)
Record plain_input (itof ptof pv : list (@num b64)) : Prop := {
  pi_itof : length itof = length pv;
  pi_ptof : length ptof = length pv;
  pi_size : Z.of_nat (length pv) + 1 < 2 ^ 31;
  pi_plain : Forall plain itof ∧ Forall plain ptof ∧ Forall plain pv;
  pi_time : ∀ i a b, itof !! i = Some a → ptof !! i = Some b → (0 < rational a + rational b)%Qc;
  pi_some : ∃ v, v ∈ pv ∧ (0 < rational v)%Qc
}.
(** The cells as (travel time, volume): without rounding, and with the travel
    times rounded to doubles. *)
Definition true_cells (itof ptof pv : list (@num b64)) : list (Qc * Qc) :=
  (λ x : @num b64 * @num b64 * @num b64, ((rational x.1.1 + rational x.1.2)%Qc, rational x.2)) <$> zip (zip itof ptof) pv.
Definition rounded_cells (itof ptof pv : list (@num b64)) : list (Qc * Qc) :=
  (λ x : @num b64 * @num b64 * @num b64, (rational (nadd x.1.1 x.1.2), rational x.2)) <$> zip (zip itof ptof) pv.
(** [x] differs from [y] by at most [r]. *)
Definition apart (r : Qc) (x : @num exact) (y : Qc) : Prop :=
  ∃ a, x = Fin a ∧ (Qcabs.Qcabs (a - y) <= r)%Qc.
