(** Changes of a problem that leave the flow alone, and changes of units. *)
From Verif.Model Require Import Num OMap Containers Toolbox.
From Verif.Spec Require Export ToolboxSpec.
Open Scope Z_scope.

Section spec.
Context {N : Num}.

(** The same net fluxes between the same cells. *)
Definition same_flow (p p' : problem) : Prop :=
  (∀ u v, flows (net_arcs p) u v ↔ flows (net_arcs p') u v) ∧
  (∀ u v, arc_flux (net_arcs p) u v = arc_flux (net_arcs p') u v).

(** The same connection written from the other end. *)
Definition flipped (x : Z * Z * list num) : Z * Z * list num := (x.1.2, x.1.1, map nopp x.2).
(** The same connection with its flux given by other phases. *)
Definition rephased (x y : Z * Z * list num) : Prop := y.1 = x.1 ∧ sum_left y.2 = sum_left x.2.
(** A connection carrying nothing. *)
Definition idle (x : Z * Z * list num) : Prop := nltb n0 (sum_left x.2) = false ∧ nltb (sum_left x.2) n0 = false.

(** The same problem with all volumes, fluxes and rates multiplied by [a]. *)
Definition scaled (a : num) (p : problem) : problem :=
  mkProblem (pb_cells p) (map (λ x : Z * Z * list num, (x.1, map (nmul a) x.2)) (pb_conns p)) (map (nmul a) (pb_pv p))
    (map (λ e : cellset_id * cellset_values, (e.1, map (λ k : Z * num, (k.1, nmul a k.2)) e.2)) (pb_rates p)).

End spec.
