(** Vertices from which a search cannot turn aside. *)
From Verif.Spec Require Export SccSpec.
Open Scope Z_scope.

(** All edges out of [v] lead to the same vertex. *)
Definition single_way (ia ja : list Z) (v : Z) : Prop :=
  ∀ w w', edge ia ja v w → edge ia ja v w' → w = w'.

(** Whatever is reached from [v] leads back to [v]. *)
Definition recurrent (ia ja : list Z) (v : Z) : Prop :=
  ∀ w, reach ia ja v w → reach ia ja w v.
