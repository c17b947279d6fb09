(** How far results move when the input moves: numbers that differ by a factor
    close to one, and problems whose numbers do. *)
From Coq Require Import QArith Qcanon.
From Verif.Model Require Import Num OMap Containers Toolbox.
From Verif.Spec Require Export ToolboxSpec.
Open Scope Z_scope.

(** [y] is [x] times a factor between 1 / (1 + e)^k and (1 + e)^k. *)
Definition about (e : Qc) (k : nat) (x y : @num exact) : Prop :=
  ∃ a r : Qc, x = Fin a ∧ y = Fin (a * r)%Qc ∧ (1 <= r * (1 + e) ^ k)%Qc ∧ (r <= (1 + e) ^ k)%Qc.

(** The same cells, connections, wells and perforations, with all net fluxes,
    pore volumes and rates changed by a factor of at most 1 + e, up or down. *)
Record nearby (e : Qc) (p p' : @problem exact) : Prop := {
  nb_cells : pb_cells p' = pb_cells p;
  nb_conns : Forall2 (λ x y : Z * Z * list (@num exact), x.1 = y.1 ∧ about e 1 (sum_left x.2) (sum_left y.2)) (pb_conns p) (pb_conns p');
  nb_pv : Forall2 (about e 1) (pb_pv p) (pb_pv p');
  nb_rates : Forall2 (λ x y, x.1 = y.1 ∧ Forall2 (λ a b : Z * @num exact, a.1 = b.1 ∧ about e 1 a.2 b.2) x.2 y.2) (pb_rates p) (pb_rates p')
}.

(** Both maps have a value, or neither has. *)
Definition both {N : Num} (R : num → num → Prop) (x y : option num) : Prop :=
  match x, y with Some a, Some b => R a b | None, None => True | _, _ => False end.

(** The flow leads from lower to higher layers. *)
Definition layers (d : direction) (p : @problem exact) (D : Z → nat) : Prop := ∀ u v, flows (flow d p) u v → (D u < D v)%nat.

Definition count (k : nat) : Qc := Q2Qc (inject_Z (Z.of_nat k)).
(** [y] differs from [x] by at most the part [h] of it. *)
Definition off_by (h : Qc) (x y : @num exact) : Prop :=
  ∃ a r : Qc, x = Fin a ∧ y = Fin (a * r)%Qc ∧ (1 - h <= r)%Qc ∧ (r <= 1 + h)%Qc.
