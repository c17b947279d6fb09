(** Vocabulary for well-pair volumes and fluxes: no reference to the code of
    DerivedQuantities.cpp. *)
From Coq Require Import QArith Qcanon.
From stdpp Require Export base list list_numbers sorting.
From Verif.Model Require Import Num.
From Verif.Spec Require Import DerivedSpec.
Open Scope Z_scope.

(** A table of (cell, value) entries with ascending cells stores the partial
    field [f] of rationals. *)
Record stores (m : list (Z * @num exact)) (f : Z → option Qc) : Prop := {
  st_sorted : StronglySorted Z.lt m.*1;
  st_value : ∀ c x, (c, x) ∈ m ↔ ∃ q, f c = Some q ∧ x = Fin q
}.

(** Cells without an entry count as zero. *)
Definition at_cell (f : Z → option Qc) (c : Z) : Qc := default 0%Qc (f c).

(** The sum over all cells [0 .. length pv - 1] of pore volume times a weight. *)
Definition cell_sum (pv : list Qc) (w : Z → Qc) : Qc :=
  qsum (imap (λ c v, (v * w (Z.of_nat c))%Qc) pv).

(** Values of a field lie between zero and one. *)
Definition unit_field (f : Z → option Qc) : Prop :=
  ∀ c q, f c = Some q → (0 <= q)%Qc ∧ (q <= 1)%Qc.
