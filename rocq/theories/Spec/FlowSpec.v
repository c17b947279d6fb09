(** Flow networks and the upwind equations on them, stated without reference to
    the solver. *)
From stdpp Require Export relations.
From Verif.Model Require Import Num OMap Containers.
From Verif.Spec Require Export GraphSpec.
Open Scope Z_scope.

Section spec.
Context {N : Num}.

(** A directed flow: from, to, magnitude. *)
Definition arc : Type := Z * Z * num.

(** All flows run between the cells 0..n-1. *)
Definition arcs_ok (n : Z) (A : list arc) : Prop :=
  Forall (λ a : arc, 0 ≤ a.1.1 < n ∧ 0 ≤ a.1.2 < n) A.

Definition flows (A : list arc) (u v : Z) : Prop := (u, v) ∈ map fst A.
Global Instance flows_dec A u v : Decision (flows A u v) := elem_of_list_dec (u, v) (map fst A).
(** Downstream of. *)
Definition leads (A : list arc) : Z → Z → Prop := rtc (flows A).
(** No cell is downstream of itself. *)
Definition acyclic (A : list arc) : Prop := ∀ v, ¬ tc (flows A) v v.

(** No flow from a cell to itself, except on a longer cycle. *)
Definition regular (A : list arc) (v : Z) : Prop :=
  ¬ flows A v v ∨ ∃ u, u ≠ v ∧ leads A v u ∧ leads A u v.

(** The flux from [u] to [v]: flows in the order given, added from left to right. *)
Definition arc_flux (A : list arc) (u v : Z) : num :=
  sum_left (omap (λ a : arc, if decide (a.1 = (u, v)) then Some a.2 else None) A).

(** The neighbours of a cell, in increasing order. *)
Definition upstream (n : Z) (A : list arc) (v : Z) : list Z :=
  filter (λ u, flows A u v) (seqZ 0 n).
Definition downstream (n : Z) (A : list arc) (u : Z) : list Z :=
  filter (λ v, flows A u v) (seqZ 0 n).

(** Total flux into and out of a cell, added from left to right. *)
Definition influx (n : Z) (A : list arc) (v : Z) : num :=
  sum_left (map (λ u, arc_flux A u v) (upstream n A v)).
Definition outflux (n : Z) (A : list arc) (u : Z) : num :=
  sum_left (map (λ v, arc_flux A u v) (downstream n A u)).

(** The flux-weighted sum of [f] over the upstream neighbours of [v]. *)
Definition mix (n : Z) (A : list arc) (f : Z → num) (v : Z) : num :=
  sum_left (map (λ u, nmul (f u) (arc_flux A u v)) (upstream n A v)).

(** The value a map holds for a cell; cells without a value count as zero. *)
Definition value_at (m : cellset_values) (v : Z) : num :=
  match om_find v m with Some x => x | None => n0 end.

(** The two graphs handed to the solver. *)
Definition down_conns (A : list arc) : list connection :=
  map (λ a : arc, (a.1.1, a.1.2, Some a.2)) A.
Definition up_conns (A : list arc) : list connection :=
  map (λ a : arc, (a.1.2, a.1.1, Some a.2)) A.
(** The flow with all directions turned around. *)
Definition turn (A : list arc) : list arc := map (λ a : arc, (a.1.2, a.1.1, a.2)) A.

End spec.
