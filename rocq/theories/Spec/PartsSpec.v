(** Lists of components compared. *)
From Verif.Spec Require Export SccSpec.
Open Scope Z_scope.

(** The same components, each with the same vertices, in any order. *)
Definition same_parts (l l' : list (list Z)) : Prop := ∃ m, l ≡ₚ m ∧ Forall2 Permutation m l'.
(** [l'] has those components of [l] whose vertices are in [P]; the others have no
    vertex in [P]. *)
Definition parts_in (P : Z → Prop) (l l' : list (list Z)) : Prop := ∃ kept rest, l ≡ₚ kept ++ rest ∧ same_parts kept l' ∧
  (∀ C v, C ∈ kept → v ∈ C → P v) ∧ (∀ C v, C ∈ rest → v ∈ C → ¬ P v).
(** The same edges, and the same edges the other way round, in graphs on 0..nv-1. *)
Definition same_edges (nv : Z) (ia ja ia' ja' : list Z) : Prop :=
  ∀ u v, 0 ≤ u < nv → 0 ≤ v < nv → (edge ia ja u v ↔ edge ia' ja' u v).
Definition opposite_edges (nv : Z) (ia ja ia' ja' : list Z) : Prop :=
  ∀ u v, 0 ≤ u < nv → 0 ≤ v < nv → (edge ia ja u v ↔ edge ia' ja' v u).
