(** What the Lorenz coefficient and the sweep efficiency measure, without a
    sorted curve. *)
From Coq Require Import QArith Qcanon.
From Coq.QArith Require Qcabs.
From Verif.Spec Require Export DerivedSpec.
Open Scope Z_scope.

(** The cells that survive the pore-volume cut-off, as (travel time, volume). *)
Definition counted (itof ptof pv : list Qc) (f : Qc) : list (Qc * Qc) :=
  (λ x : Qc * Qc * Qc, ((x.1.1 + x.1.2)%Qc, x.2)) <$> survivors itof ptof pv f.
(** Total volume, and total flux: a volume that is replaced once in the travel
    time. *)
Definition volume (z : list (Qc * Qc)) : Qc := qsum z.*2.
Definition flux (z : list (Qc * Qc)) : Qc := qsum ((λ c : Qc * Qc, (c.2 / c.1)%Qc) <$> z).
(** How much the frequencies [1/t] differ, in the mean over all pairs of cells. *)
Definition spread (z : list (Qc * Qc)) : Qc :=
  qsum ((λ c : Qc * Qc, qsum ((λ d : Qc * Qc, (c.2 * d.2 * Qcabs.Qcabs (/ c.1 - / d.1))%Qc) <$> z)) <$> z).
(** The volume filled after time [t]: a cell fills evenly during its travel time. *)
Definition filled (z : list (Qc * Qc)) (t : Qc) : Qc :=
  qsum ((λ c : Qc * Qc, if decide (c.1 <= t)%Qc then c.2 else (c.2 * (t / c.1))%Qc) <$> z).
Definition by_time (z : list (Qc * Qc)) : Prop := StronglySorted (λ c d : Qc * Qc, (c.1 <= d.1)%Qc) z.
(** The volume with travel time [t]. *)
Definition volume_at (z : list (Qc * Qc)) (t : Qc) : Qc :=
  qsum (filter (λ c : Qc * Qc, c.1 = t) z).*2.
(** [z'] distributes its volume over the travel times like [z], except for the
    units of volume and time. *)
Definition same_distribution (a b : Qc) (z z' : list (Qc * Qc)) : Prop :=
  ∀ t, volume_at z' (b * t)%Qc = (a * volume_at z t)%Qc.
