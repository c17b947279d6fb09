(** Problems with the same flow and combined pore volumes. *)
From Verif.Model Require Import Num OMap Containers Toolbox.
From Verif.Spec Require Export ToolboxSpec.
Open Scope Z_scope.

Definition same_but_pores {N : Num} (p q : problem) : Prop :=
  pb_cells q = pb_cells p ∧ pb_conns q = pb_conns p ∧ pb_rates q = pb_rates p.
(** The pore volumes of [p] are [a] times those of [p1] plus [b] times those of [p2]. *)
Definition combined {N : Num} (a b : num) (p1 p2 p : problem) : Prop := same_but_pores p p1 ∧ same_but_pores p p2 ∧
  pb_pv p = zip_with (λ x y, nadd (nmul a x) (nmul b y)) (pb_pv p1) (pb_pv p2).
(** The same problem with all fluxes and rates multiplied by [a]: time runs faster. *)
Definition hastened {N : Num} (a : num) (p : problem) : problem :=
  mkProblem (pb_cells p) (map (λ x : Z * Z * list num, (x.1, map (nmul a) x.2)) (pb_conns p)) (pb_pv p)
    (map (λ e : cellset_id * cellset_values, (e.1, map (λ k : Z * num, (k.1, nmul a k.2)) e.2)) (pb_rates p)).
