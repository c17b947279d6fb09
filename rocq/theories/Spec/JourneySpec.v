(** Journeys: what a particle that enters at a well can do until it reaches a
    cell, without reference to the solver. *)
From Verif.Model Require Import Num OMap Containers Toolbox.
From Verif.Spec Require Export AcyclicSpec.
Open Scope Z_scope.

Section spec.
Context {N : Num}.

(** The cells that are visited, the last one first; each step follows a flow. *)
Fixpoint journey (A : list arc) (l : list Z) : Prop :=
  match l with
  | [] => False
  | v :: l' => match l' with [] => True | u :: _ => flows A u v ∧ journey A l' end
  end.

(** All ways to arrive in [v] after [k] steps. *)
Fixpoint arrivals (n : Z) (A : list arc) (k : nat) (v : Z) : list (list Z) :=
  match k with
  | O => [[v]]
  | S k' => u ← upstream n A v; cons v <$> arrivals n A k' u
  end.
(** All ways to arrive in [v] after at most [k] steps. *)
Definition arrivals_upto (n : Z) (A : list arc) (k : nat) (v : Z) : list (list Z) :=
  k' ← seq 0 (S k); arrivals n A k' v.

(** A particle in a cell came out of a well there or out of an upstream cell, in
    proportion to the fluxes into the cell.  [source] is the rate of the wells
    that are looked at. *)
Fixpoint chance (p : problem) (d : direction) (source : Z → num) (l : list Z) : num :=
  match l with
  | [] => n0
  | v :: l' =>
      match l' with
      | [] => if nltb n0 (source v) then ndiv (source v) (total_in p d v) else n0
      | u :: _ => nmul (ndiv (arc_flux (flow d p) u v) (total_in p d v)) (chance p d source l')
      end
  end.
(** A particle stays in a cell for pore volume over flux. *)
Fixpoint duration (p : problem) (d : direction) (l : list Z) : num :=
  match l with
  | [] => n0
  | v :: l' => nadd (ndiv (pore p v) (total_in p d v)) (duration p d l')
  end.
(** The chance of a set of journeys, and the durations of those that can happen,
    weighted by their chance. *)
Definition chances (p : problem) (d : direction) (source : Z → num) (J : list (list Z)) : num :=
  sum_left (map (chance p d source) J).
Definition durations (p : problem) (d : direction) (source : Z → num) (J : list (list Z)) : num :=
  sum_left (map (λ l, nmul (chance p d source l) (duration p d l))
    (filter (λ l, nltb n0 (chance p d source l) = true) J)).

(** The rate of one well, and the journeys in a network with [pb_cells] cells:
    without cycles no journey has as many steps as there are cells. *)
Definition rate_of (p : problem) (d : direction) (id : cellset_id) (v : Z) : num :=
  default n0 (well_rate d (pb_rates p) id v).
Definition journeys (p : problem) (d : direction) (v : Z) : list (list Z) :=
  arrivals_upto (pb_cells p) (flow d p) (Z.to_nat (pb_cells p)) v.

(** No cell on the way from the wells to [v] is so slow that it counts as cut
    off; [S] are the cells that the wells serve. *)
Definition brisk (p : problem) (d : direction) (S : Z → Prop) (v : Z) : Prop :=
  ∀ u, leads (flow d p) u v → S u → nltb (total_in p d u) (ndiv (pore p u) cutoff) = false.
End spec.
