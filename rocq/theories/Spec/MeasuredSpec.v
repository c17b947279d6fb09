(** Doubles that stand for numbers known only approximately. *)
From Coq Require Import QArith Qcanon.
From Verif.Model Require Import Num OMap Containers Toolbox.
From Verif.Spec Require Export ToolboxSpec.
From Verif.Spec Require Import AccuracySpec ConditionSpec.
Open Scope Z_scope.

(** The double [y] is [x] times a factor between 1 / (1 + e) and 1 + e. *)
Definition stands (e : Qc) (x : @num exact) (y : @num b64) : Prop := about e 1 x (q_of y).

(** [p] is [q] put down in doubles: the same cells, connections, wells and
    perforations; pore volumes, rates and the rounded sums of the phase fluxes are
    off by a factor of at most 1 + e. *)
Record measured (e : Qc) (q : @problem exact) (p : @problem b64) : Prop := {
  me_cells : pb_cells p = pb_cells q;
  me_conns : Forall2 (λ (x : Z * Z * list (@num exact)) (y : Z * Z * list (@num b64)), x.1 = y.1 ∧ stands e (sum_left x.2) (sum_left y.2)) (pb_conns q) (pb_conns p);
  me_pv : Forall2 (stands e) (pb_pv q) (pb_pv p);
  me_rates : Forall2 (λ (x : cellset_id * @cellset_values exact) (y : cellset_id * @cellset_values b64),
    x.1 = y.1 ∧ Forall2 (λ (a : Z * @num exact) (b : Z * @num b64), a.1 = b.1 ∧ stands e a.2 b.2) x.2 y.2) (pb_rates q) (pb_rates p)
}.

(** Net fluxes, rates and pore volumes of ordinary size. *)
Record moderate (p : @problem b64) : Prop := {
  mo_flux : ∀ a, a ∈ net_arcs p → sized (-100) 100 (q_of a.2);
  mo_rate : ∀ d id c x, well_rate d (pb_rates p) id c = Some x → sized (-100) 100 (q_of x);
  mo_pore : ∀ x, x ∈ pb_pv p → sized (-100) 100 (q_of x)
}.

(** Equal up to [K] factors of 1 + e and [k] of 1 + 2^-52. *)
Definition tracks (e : Qc) (K k : nat) (x y : @num exact) : Prop :=
  ∃ a b, x = Fin a ∧ y = Fin b ∧
    (a <= b * ((1 + e) ^ K * (1 + pow2 (-52)) ^ k))%Qc ∧ (b <= a * ((1 + e) ^ K * (1 + pow2 (-52)) ^ k))%Qc.
(** In no cell is the total influx so near the bound below which times-of-flight
    are cut off that errors of the data or rounding could decide. *)
Definition away_from_cutoff (e : Qc) (d : direction) (q : @problem exact) (p : @problem b64) : Prop :=
  ∀ v, 0 ≤ v < pb_cells q → ¬ tracks e 2 (cost d p v) (total_in q d v) (ndiv (pore q v) cutoff).
