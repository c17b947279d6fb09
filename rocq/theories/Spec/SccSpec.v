(** Directed graphs in CSR form and their strongly connected components, stated
    independently of the model. *)
From Coq Require Export ZArith Bool.
From stdpp Require Export base list list_numbers relations.
Open Scope Z_scope.

(** Row [v] of the CSR structure (ia, ja). *)
Definition csr_row (ia ja : list Z) (v : Z) : list Z :=
  match ia !! Z.to_nat v, ia !! S (Z.to_nat v) with
  | Some b, Some e => take (Z.to_nat (e - b)) (drop (Z.to_nat b) ja)
  | _, _ => []
  end.

(** A well-formed graph on the vertices 0..nv-1, small enough for the vertex
    numbers and row lengths to be ints. *)
Record wf_graph (nv : Z) (ia ja : list Z) : Prop := {
  wf_nv : 0 ≤ nv < 2 ^ 31;
  wf_len : length ia = S (Z.to_nat nv);
  wf_row : ∀ v b e, 0 ≤ v < nv → ia !! Z.to_nat v = Some b → ia !! S (Z.to_nat v) = Some e →
    0 ≤ b ≤ e ∧ e ≤ Z.of_nat (length ja) ∧ e - b < 2 ^ 31;
  wf_ja : ∀ v w, 0 ≤ v < nv → w ∈ csr_row ia ja v → 0 ≤ w < nv
}.

Definition edge (ia ja : list Z) (u v : Z) : Prop := v ∈ csr_row ia ja u.
Definition reach (ia ja : list Z) : Z → Z → Prop := rtc (edge ia ja).
Definition strong (ia ja : list Z) (u v : Z) : Prop := reach ia ja u v ∧ reach ia ja v u.

(** Number of edges leaving the vertices in [l]. *)
Definition num_edges (ia ja : list Z) (l : list Z) : Z :=
  foldr (λ v n, Z.of_nat (length (csr_row ia ja v)) + n) 0 l.

(** [comps] lists strongly connected components of the graph, each vertex of
    [P] (and no other) exactly once. *)
Record is_sccs (ia ja : list Z) (P : Z → Prop) (comps : list (list Z)) : Prop := {
  sc_nodup : NoDup (concat comps);
  sc_cover : ∀ v, v ∈ concat comps ↔ P v;
  sc_nonempty : Forall (λ C, C ≠ []) comps;
  sc_strong : ∀ C u v, C ∈ comps → u ∈ C → (v ∈ C ↔ strong ia ja u v)
}.

(** Every edge leads to the same or an earlier component. *)
Definition reverse_topological (ia ja : list Z) (comps : list (list Z)) : Prop :=
  ∀ i C u v, comps !! i = Some C → u ∈ C → edge ia ja u v →
    ∃ j D, comps !! j = Some D ∧ v ∈ D ∧ (j ≤ i)%nat.
