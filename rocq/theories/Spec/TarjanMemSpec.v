(** Ownership of heap blocks. *)
From stdpp Require Import gmap.
From Verif.Model Require Import Base TarjanAlloc.
Open Scope nat_scope.

(** Addresses handed out so far are below [m_calls]. *)
Definition fresh_mem (m : mem) : Prop := ∀ p, p ∈ m_live m → p < m_calls m.

Definition all_ok (ok : nat → bool) (m m' : mem) : Prop := ∀ k, m_calls m ≤ k < m_calls m' → ok k = true.
Definition some_failed (ok : nat → bool) (m m' : mem) : Prop := ∃ k, m_calls m ≤ k < m_calls m' ∧ ok k = false.

(** [p] points to an intact object that owns the blocks [L]. *)
Definition owns_scc (m : mem) (p : nat) (L : gset nat) : Prop :=
  ∃ s v, m_scc m !! p = Some ((Some s, Some v) : ptr * ptr) ∧ p ≠ s ∧ p ≠ v ∧ s ≠ v ∧ L = {[p; s; v]} ∧ L ⊆ m_live m.
Definition owns_ws (m : mem) (p : nat) (L : gset nat) : Prop :=
  ∃ s, m_ws m !! p = Some (Some s : ptr) ∧ p ≠ s ∧ L = {[p; s]} ∧ L ⊆ m_live m.

