(** The equations of a well's tracer, met up to a given error. *)
From Coq Require Import QArith Qcanon.
From Verif.Model Require Import Num OMap Containers Toolbox.
From Verif.Spec Require Export ToolboxSpec.
Open Scope Z_scope.

(** What the values [c] carry into cell [v], with the rate of well [id] there, is
    what they carry out, up to [r] times the total flux into the cell. *)
Definition met_within (r : Qc) (p : @problem exact) (d : direction) (id : cellset_id) (c : Z → @num exact) (v : Z) : Prop :=
  ∃ t e, total_in p d v = Fin t ∧ (- (r * t) <= e <= r * t)%Qc ∧
    nmul (total_in p d v) (c v) = nadd (own p d id v (mix (pb_cells p) (flow d p) c v)) (Fin e).

(** A part [r] of the sum of the fluxes into all cells. *)
Definition allowance (r : Qc) (p : @problem exact) (d : direction) : @num exact :=
  nmul (Fin r : @num exact) (sum_left (map (total_in p d) (seqZ 0 (pb_cells p)))).
(** Absolute difference. *)
Definition distance (x y : @num exact) : @num exact := nabs (nsub x y).
