(** Specifications for the container classes, independent of the model. *)
From Coq Require Export ZArith Bool.
From stdpp Require Export base list list_numbers sorting.
Open Scope Z_scope.

(** The flat N-by-2 table of a list of pairs. *)
Definition flatten_pairs (ps : list (Z * Z)) : list Z := ps ≫= λ p, [p.1; p.2].

(** The value last written to key [k] by a list of writes (oldest first). *)
Definition last_write {K V} `{EqDecision K} (d : V) (ws : list (K * V)) (k : K) : V :=
  default d (last (omap (λ w, if decide (w.1 = k) then Some w.2 else None) ws)).

(** Position of entry ([c], [p]) of an array of [np] columns in 64-bit unsigned
    arithmetic, and the writes to entries of an [nc]-by-[np] array, by position. *)
Definition slot (np : Z) (k : Z * Z) : Z := (k.1 * np + k.2) mod 2 ^ 64.
Definition slot_writes {V} (nc np : Z) (ws : list (Z * Z * V)) : list (Z * V) :=
  map (λ w, (slot np w.1, w.2)) (filter (λ w, w.1.1 < nc ∧ w.1.2 < np) ws).
