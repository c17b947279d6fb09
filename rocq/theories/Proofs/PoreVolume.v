(** Without cycles pair volumes are linear in the pore volumes. *)
From Coq Require Import String QArith Qcanon.
From Verif.Model Require Import Base Num OMap Containers Solution AssembledConnections Tarjan TracerTofSolver Toolbox DerivedQuantities.
From Verif.Spec Require Import DerivedSpec AcyclicSpec SuperposeSpec CyclicSpec.
From Verif.Proofs Require Import Util OMapFacts AConn ExactNum QcLra OrdLaws OppLaws DerivedExact DerivedMisc GaussSeidel ToolboxThms ToolboxExact Duality Balance PairTime PoreFree.
Open Scope Z_scope.

Lemma combined_pores (x y : Qc) (p p1 p2 : @problem exact) v : combined (Fin x : @num exact) (Fin y) p1 p2 p → valid p1 → valid p2 → data finite p1 → data finite p2 →
  0 ≤ v < pb_cells p → (pvq p v = x * pvq p1 v + y * pvq p2 v)%Qc.
Proof.
  intros ((A1 & _) & (B1 & _) & E) Hp1 Hp2 HD1 HD2 Hv. pose proof (va_pv _ Hp1) as L1. pose proof (va_pv _ Hp2) as L2. unfold zlen in L1, L2.
  destruct (lookup_lt_is_Some_2 (pb_pv p1) (Z.to_nat v)) as [a Ea]; [lia|]. destruct (lookup_lt_is_Some_2 (pb_pv p2) (Z.to_nat v)) as [b Eb]; [lia|].
  unfold pvq, pore. rewrite E, lookup_zip_with, Ea, Eb. cbn [default mbind option_bind].
  destruct (da_pv _ _ HD1 a) as [qa ->]; [by eapply elem_of_list_lookup_2|]. destruct (da_pv _ _ HD2 b) as [qb ->]; [by eapply elem_of_list_lookup_2|]. reflexivity.
Qed.
Lemma combined_volume (x y : Qc) (p p1 p2 : @problem exact) g f g1 f1 g2 f2 ei ep ei1 ep1 ei2 ep2 si sp si1 sp1 si2 sp2 inj prod inj1 prod1 inj2 prod2 :
  combined (Fin x : @num exact) (Fin y) p1 p2 p →
  valid p → poses p g f → data finite p → pores_ok p → valid p1 → poses p1 g1 f1 → data finite p1 → pores_ok p1 →
  valid p2 → poses p2 g2 f2 → data finite p2 → pores_ok p2 → acyclic (net_arcs p) →
  diagnose Injection ei g p f si = Ok (OSol inj) → diagnose Production ep g p f sp = Ok (OSol prod) →
  diagnose Injection ei1 g1 p1 f1 si1 = Ok (OSol inj1) → diagnose Production ep1 g1 p1 f1 sp1 = Ok (OSol prod1) →
  diagnose Injection ei2 g2 p2 f2 si2 = Ok (OSol inj2) → diagnose Production ep2 g2 p2 f2 sp2 = Ok (OSol prod2) →
  ∀ i j, i ∈ map cs_id si → i ∈ map cs_id si1 → i ∈ map cs_id si2 → j ∈ map cs_id sp → j ∈ map cs_id sp1 → j ∈ map cs_id sp2 →
  ∃ V1 V2 : Qc, pair_volume inj1 prod1 (pb_pv p1) i j = Ok (Fin V1 : @num exact) ∧ pair_volume inj2 prod2 (pb_pv p2) i j = Ok (Fin V2 : @num exact) ∧
    pair_volume inj prod (pb_pv p) i j = Ok (Fin (x * V1 + y * V2)%Qc : @num exact).
Proof.
  intros HC Hp HP HD HV Hp1 HP1 HD1 HV1 Hp2 HP2 HD2 HV2 Hac H H' H1 H1' H2 H2' i j I I1 I2 J J1 J2.
  pose proof HC as (E1 & E2 & _).
  assert (∀ q (G : cgraph) F d e e' s s' sol sol' id, valid q → poses q G F → same_but_pores p q → diagnose d e g p f s = Ok (OSol sol) → diagnose d e' G q F s' = Ok (OSol sol') →
    id ∈ map cs_id s → id ∈ map cs_id s' → ∀ v, cq sol' id v = cq sol id v) as Hsame.
  { intros q G F d e e' s s' sol sol' id Hq HQ HE R R' K K' v. unfold cq.
    rewrite (pores_map exact_laws exact_opp_laws p q g f G F d e e' s s' sol sol' Hp HP); try done; by split. }
  exists (qsum (map (λ v, pvq p1 v * (cq inj i v * cq prod j v))%Qc (seqZ 0 (pb_cells p)))), (qsum (map (λ v, pvq p2 v * (cq inj i v * cq prod j v))%Qc (seqZ 0 (pb_cells p)))).
  rewrite (volume_q p g f Hp HP HD HV _ _ _ _ _ _ _ _ i j H H'), (volume_q p1 g1 f1 Hp1 HP1 HD1 HV1 _ _ _ _ _ _ _ _ i j H1 H1'), (volume_q p2 g2 f2 Hp2 HP2 HD2 HV2 _ _ _ _ _ _ _ _ i j H2 H2').
  rewrite (proj1 E1), (proj1 E2). split; [|split]; do 2 f_equal.
  - apply qsum_ext. intros v _. by rewrite (Hsame p1 g1 f1 Injection ei ei1 si si1 inj inj1 i), (Hsame p1 g1 f1 Production ep ep1 sp sp1 prod prod1 j).
  - apply qsum_ext. intros v _. by rewrite (Hsame p2 g2 f2 Injection ei ei2 si si2 inj inj2 i), (Hsame p2 g2 f2 Production ep ep2 sp sp2 prod prod2 j).
  - rewrite <-!qsum_scale, <-qsum_plus. apply qsum_ext. intros v Hv%elem_of_seqZ.
    rewrite (combined_pores x y p p1 p2 v HC Hp1 Hp2 HD1 HD2) by lia. ring.
Qed.
