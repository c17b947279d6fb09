(** How far results computed with doubles are from those of exact arithmetic. *)
From Coq Require Import QArith Qcanon.
From Coq.Floats Require Import SpecFloat.
From Verif.Model Require Import Num OMap Containers Toolbox.
From Verif.Spec Require Export ToolboxSpec.
Open Scope Z_scope.

(** Powers of two. *)
Definition pow2 (e : Z) : Qc := Q2Qc (inject_Z 2 ^ e)%Q.
(** The number a double stands for. *)
Definition q_of (x : @num b64) : @num exact :=
  match x with
  | S754_zero _ => Fin 0%Qc
  | S754_infinity s => if s then MInf else PInf
  | S754_nan => NaN
  | S754_finite s m e => Fin (Q2Qc (inject_Z (if s then Zneg m else Zpos m)) * pow2 e)%Qc
  end.
(** The problem with its data taken as exact numbers. *)
Definition exactly (p : @problem b64) : @problem exact :=
  @mkProblem exact (pb_cells p) (map (λ x : Z * Z * list (@num b64), (x.1, map q_of x.2)) (pb_conns p)) (map q_of (pb_pv p))
    (map (λ e : cellset_id * @cellset_values b64, (e.1, map (λ k : Z * @num b64, (k.1, q_of k.2)) e.2)) (pb_rates p)).

(** Equal up to [k] relative errors of 2^-52. *)
Definition within (k : nat) (a b : Qc) : Prop :=
  (a <= b * (1 + pow2 (-52)) ^ k)%Qc ∧ (b <= a * (1 + pow2 (-52)) ^ k)%Qc.
Definition close (k : nat) (x y : @num exact) : Prop :=
  ∃ a b, x = Fin a ∧ y = Fin b ∧ within k a b.
(** [x] differs from [y] by at most [r] times [y]. *)
Definition off_by (r : Qc) (x y : @num exact) : Prop :=
  ∃ a b, x = Fin a ∧ y = Fin b ∧ (b * (1 - r) <= a)%Qc ∧ (a <= b * (1 + r))%Qc.
(** [k] relative errors of 2^-51. *)
Definition errors (k : nat) : Qc := (Q2Qc (inject_Z (Z.of_nat k)) * pow2 (-51))%Qc.
(** Positive and of a size given by powers of two. *)
Definition sized (lo hi : Z) (x : @num exact) : Prop :=
  ∃ q, x = Fin q ∧ (pow2 lo <= q <= pow2 hi)%Qc.

(** Data of ordinary size, in which the phase fluxes of a connection add up
    without rounding. *)
Record ordinary (p : @problem b64) : Prop := {
  or_net : ∀ x, x ∈ pb_conns p → q_of (sum_left x.2) = sum_left (map q_of x.2);
  or_flux : ∀ a, a ∈ net_arcs (exactly p) → sized (-100) 100 a.2;
  or_rate : ∀ d id c x, well_rate d (pb_rates (exactly p)) id c = Some x → sized (-100) 100 x;
  or_pore : ∀ x, x ∈ pb_pv (exactly p) → sized (-100) 100 x
}.

(** Rounded operations in the equations of a cell. *)
Definition cost (d : direction) (p : @problem b64) (v : Z) : nat :=
  4 * length (filter (λ a : @arc b64, a.1.2 = v) (flow d p)) + 2 * length (cell_rates d (pb_rates p) v) + 6.
(** No cell has more. *)
Definition all_costs (p : @problem b64) : nat := 4 * length (pb_conns p) + 2 * length (pb_rates p) + 6.
(** Bounds for the errors of concentrations and of times-of-flight that add up
    along the flow. *)
Record budget (d : direction) (p : @problem b64) (kc kt : Z → nat) : Prop := {
  bu_conc : ∀ v, (cost d p v ≤ kc v)%nat;
  bu_conc_flow : ∀ u v, flows (flow d p) u v → (kc u + cost d p v ≤ kc v)%nat;
  bu_tof : ∀ v, (2 * kc v + cost d p v ≤ kt v)%nat;
  bu_tof_flow : ∀ u v, flows (flow d p) u v → (kt u + 2 * kc v + cost d p v ≤ kt v)%nat;
  bu_small : ∀ v, Z.of_nat (kt v) ≤ 2 ^ 50
}.
(** In no cell is the total influx so near the bound below which times-of-flight
    are cut off that rounding could decide. *)
Definition clear_of_cutoff (d : direction) (p : @problem b64) : Prop :=
  ∀ v, 0 ≤ v < pb_cells p →
    ¬ close (cost d p v) (total_in (exactly p) d v) (ndiv (pore (exactly p) v) cutoff).
