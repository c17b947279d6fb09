(** Streams: what flows along a journey from one well to another, without
    reference to the solver. *)
From Verif.Model Require Import Num OMap Containers Toolbox.
From Verif.Spec Require Export MirrorSpec JourneySpec.
Open Scope Z_scope.

Section spec.
Context {N : Num}.

(** The journeys to all cells. *)
Definition all_journeys (p : problem) (d : direction) : list (list Z) :=
  v ← seqZ 0 (pb_cells p); journeys p d v.
(** What well [j] takes out in the last cell (the first one of the list) and
    came the way of the journey from well [i]. *)
Definition stream (p : problem) (d : direction) (i j : cellset_id) (l : list Z) : num :=
  match l with
  | [] => n0
  | v :: _ => nmul (chance p d (rate_of p d i) l) (rate_of p (opposite d) j v)
  end.
(** All streams from [i] to [j]; and what they hold, a stream that flows for
    some time being a volume. *)
Definition streams (p : problem) (d : direction) (i j : cellset_id) : num :=
  sum_left (map (stream p d i j) (all_journeys p d)).
Definition held (p : problem) (d : direction) (i j : cellset_id) : num :=
  sum_left (map (λ l, nmul (stream p d i j l) (duration p d l))
    (filter (λ l, nltb n0 (stream p d i j l) = true) (all_journeys p d))).
End spec.
