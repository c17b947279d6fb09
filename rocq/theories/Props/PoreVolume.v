(** Property C94, continued: without cycles pair volumes are linear in the pore
    volumes. Toolbox.cpp, TracerTofSolver.cpp and DerivedQuantities.cpp. *)
From Coq Require Import String QArith Qcanon.
From Verif.Model Require Import Base Num OMap Containers Solution AssembledConnections Tarjan TracerTofSolver Toolbox DerivedQuantities.
From Verif.Spec Require Import ToolboxSpec SuperposeSpec CyclicSpec.
From Verif.Proofs Require Import OMapFacts ExactNum OrdLaws ToolboxThms ToolboxExact PoreVolume.
From Verif.Props Require Import Toolbox Balance Superpose.
Open Scope Z_scope.

Theorem C94_pair_volumes (x y : Qc) (p p1 p2 : @problem exact) g f g1 f1 g2 f2 ei ep ei1 ep1 ei2 ep2 si sp si1 sp1 si2 sp2 inj prod inj1 prod1 inj2 prod2 :
  combined (Fin x : @num exact) (Fin y) p1 p2 p →
  valid p → poses p g f → data finite p → pores_ok p → valid p1 → poses p1 g1 f1 → data finite p1 → pores_ok p1 →
  valid p2 → poses p2 g2 f2 → data finite p2 → pores_ok p2 → acyclic (net_arcs p) →
  diagnose Injection ei g p f si = Ok (OSol inj) → diagnose Production ep g p f sp = Ok (OSol prod) →
  diagnose Injection ei1 g1 p1 f1 si1 = Ok (OSol inj1) → diagnose Production ep1 g1 p1 f1 sp1 = Ok (OSol prod1) →
  diagnose Injection ei2 g2 p2 f2 si2 = Ok (OSol inj2) → diagnose Production ep2 g2 p2 f2 sp2 = Ok (OSol prod2) →
  ∀ i j, i ∈ map cs_id si → i ∈ map cs_id si1 → i ∈ map cs_id si2 → j ∈ map cs_id sp → j ∈ map cs_id sp1 → j ∈ map cs_id sp2 →
  ∃ V1 V2 : Qc, pair_volume inj1 prod1 (pb_pv p1) i j = Ok (Fin V1 : @num exact) ∧ pair_volume inj2 prod2 (pb_pv p2) i j = Ok (Fin V2 : @num exact) ∧
    pair_volume inj prod (pb_pv p) i j = Ok (Fin (x * V1 + y * V2)%Qc : @num exact).
Proof. exact (combined_volume x y p p1 p2 g f g1 f1 g2 f2 ei ep ei1 ep1 ei2 ep2 si sp si1 sp1 si2 sp2 inj prod inj1 prod1 inj2 prod2). Qed.

(** ** Example *)
Definition su_prun {N : Num} V := diagnose Production ex_ev (graph_for (@su_p N V)) (su_p V) (values_for (su_p V) 1) [cs_new "P"%string].
Definition su_volume {N : Num} V (want : num) : bool := solves (@su_run N V) (λ i, solves (@su_prun N V) (λ j,
  match pair_volume i j (map nofZ V) "I1"%string "P"%string with Ok x => neqb x want | _ => false end)).
(** I1 has half of cell 1 and three quarters of cell 3: 899/4 is 2 * 409/4 + 3 * 27/4. *)
Example C94_volume_runs : @su_volume exact su1 (frac 409 4) && @su_volume exact su2 (frac 27 4) && @su_volume exact su3 (frac 899 4) = true.
Proof. vm_compute. reflexivity. Qed.
Example C94_volume_ex i1 j1 i2 j2 i3 j3 : @su_run exact su1 = Ok (OSol i1) → @su_prun exact su1 = Ok (OSol j1) →
  @su_run exact su2 = Ok (OSol i2) → @su_prun exact su2 = Ok (OSol j2) → @su_run exact su3 = Ok (OSol i3) → @su_prun exact su3 = Ok (OSol j3) →
  ∃ V1 V2 : Qc, pair_volume i1 j1 (pb_pv (su_p su1)) "I1"%string "P"%string = Ok (Fin V1 : @num exact) ∧ pair_volume i2 j2 (pb_pv (su_p su2)) "I1"%string "P"%string = Ok (Fin V2 : @num exact) ∧
    pair_volume i3 j3 (pb_pv (su_p su3)) "I1"%string "P"%string = Ok (Fin (Q2Qc 2 * V1 + Q2Qc 3 * V2)%Qc : @num exact).
Proof.
  intros H1 K1 H2 K2 H3 K3. assert (su_ok su1) as O1 by (left; reflexivity). assert (su_ok su2) as O2 by (right; left; reflexivity). assert (su_ok su3) as O3 by (right; right; reflexivity).
  pose proof (data_impl _ _ _ int_finite (su_int su1 O1)) as D1. pose proof (data_impl _ _ _ int_finite (su_int su2 O2)) as D2. pose proof (data_impl _ _ _ int_finite (su_int su3 O3)) as D3.
  assert (acyclic (net_arcs (@su_p exact su3))) as Hac by (apply (acyclic_rank (λ z, z)); rewrite su_arcs; forall_tac).
  refine (C94_pair_volumes _ _ _ _ _ _ _ _ _ _ _ _ _ _ _ _ _ _ _ _ _ _ _ i3 j3 i1 j1 i2 j2 su_combined (su_valid su3 O3) (su_poses su3 O3) D3 (su_pores su3 O3)
    (su_valid su1 O1) (su_poses su1 O1) D1 (su_pores su1 O1) (su_valid su2 O2) (su_poses su2 O2) D2 (su_pores su2 O2) Hac H3 K3 H1 K1 H2 K2 _ _ _ _ _ _ _ _); left.
Qed.

Print Assumptions C94_pair_volumes.
