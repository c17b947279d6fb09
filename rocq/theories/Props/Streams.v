(** Property C80: fluxes between pairs of wells are sums of streams along journeys
    and volumes their durations weighted by them, Toolbox.cpp, TracerTofSolver.cpp
    and DerivedQuantities.cpp, in exact arithmetic. *)
From Coq Require Import String QArith Qcanon.
From Verif.Model Require Import Base Num OMap Containers Solution AssembledConnections Tarjan TracerTofSolver Toolbox DerivedQuantities.
From Verif.Spec Require Import ToolboxSpec MirrorSpec StreamSpec.
From Verif.Proofs Require Import OMapFacts ExactNum OrdLaws ToolboxFlow ToolboxThms Journeys Streams.
From Verif.Props Require Import Toolbox SameFlow Balance Cyclic Journeys.
Open Scope Z_scope.

(** ** C80 *)
(** Without cycles the list of all journeys contains every journey through the
    cells once. *)
Theorem C80_journeys {N : Num} (p : problem) d : valid p → acyclic (net_arcs p) →
  NoDup (all_journeys p d) ∧ ∀ l, l ∈ all_journeys p d ↔ journey (flow d p) l ∧ ∀ v, v ∈ l → 0 ≤ v < pb_cells p.
Proof.
  intros Hp Hac. split.
  - apply NoDup_bind; [apply NoDup_seqZ|intros; apply upto_nodup|].
    intros x y z _ _ (k & Hk & _)%elem_of_list_bind (k' & Hk' & _)%elem_of_list_bind.
    destruct (arrivals_head _ _ _ _ _ Hk) as [l ->]. destruct (arrivals_head _ _ _ _ _ Hk') as [l' [= E _]]. done.
  - intros l. unfold all_journeys. rewrite elem_of_list_bind. split.
    + intros (v & Hl & Hv%elem_of_seqZ). apply (C79_journeys p d v Hp Hac) in Hl as [Hj Hh]; [|lia]. split; [done|].
      destruct l as [|v' l]; [done|]. injection Hh as ->. apply (journey_range (pb_cells p) (flow d p)); [by apply flow_arcs|lia|done].
    + intros [Hj Hr]. destruct l as [|v l]; [done|]. pose proof (Hr v (elem_of_list_here _ _)) as Hv. exists v. split; [|by apply elem_of_seqZ; lia].
      by apply (C79_journeys p d v Hp Hac Hv).
Qed.
(** What an injector sends to a producer, and what that producer gets from it, is
    the sum of the streams along all journeys from one to the other. *)
Theorem C80_flux (p : @problem exact) g f ev ev' sets sets' sol sol' i j : valid p → poses p g f → data finite p → pores_ok p →
  acyclic (net_arcs p) → conserves p →
  diagnose Injection ev g p f sets = Ok (OSol sol) → diagnose Production ev' g p f sets' = Ok (OSol sol') →
  (is_well Injection (pb_rates p) i → i ∈ map cs_id sets) → (is_well Production (pb_rates p) j → j ∈ map cs_id sets') →
  i ∈ map fst (pb_rates p) → j ∈ map fst (pb_rates p) →
  pair_flux sol sol' i j (pb_rates p) = Ok (streams p Injection i j, nopp (streams p Injection i j)).
Proof. intros Hp HP HD HV Hac. exact (flux_streams p g f Hp HP HD HV Hac ev ev' sets sets' sol sol' i j). Qed.
(** The volume of the pair is what these streams hold: every one of them flows for
    as long as the journey takes. *)
Theorem C80_volume (p : @problem exact) g f d ev ev' sets sets' sol sol' i j : valid p → poses p g f → data finite p → pores_ok p →
  acyclic (net_arcs p) → conserves p →
  diagnose d ev g p f sets = Ok (OSol sol) → diagnose (opposite d) ev' g p f sets' = Ok (OSol sol') →
  (is_well d (pb_rates p) i → i ∈ map cs_id sets) → (is_well (opposite d) (pb_rates p) j → j ∈ map cs_id sets') →
  pair_volume sol sol' (pb_pv p) i j = Ok (held p d i j).
Proof. intros Hp HP HD HV Hac. exact (volume_streams p g f Hp HP HD HV Hac d ev ev' sets sets' sol sol' i j). Qed.
(** So volume over flux lies between the durations of the fastest and of the
    slowest journey. *)
Theorem C80_between (p : @problem exact) g f ev ev' sets sets' sol sol' i j (a b : Qc) : valid p → poses p g f → data finite p → pores_ok p →
  acyclic (net_arcs p) → conserves p →
  diagnose Injection ev g p f sets = Ok (OSol sol) → diagnose Production ev' g p f sets' = Ok (OSol sol') →
  (is_well Injection (pb_rates p) i → i ∈ map cs_id sets) → (is_well Production (pb_rates p) j → j ∈ map cs_id sets') →
  i ∈ map fst (pb_rates p) → j ∈ map fst (pb_rates p) →
  (∀ l, l ∈ all_journeys p Injection → nltb n0 (stream p Injection i j l) = true →
    nleb (Fin a : @num exact) (duration p Injection l) = true ∧ nleb (duration p Injection l) (Fin b : @num exact) = true) →
  ∃ q V, pair_flux sol sol' i j (pb_rates p) = Ok (q, nopp q) ∧ pair_volume sol sol' (pb_pv p) i j = Ok V ∧
    nleb (nmul (Fin a : @num exact) q) V = true ∧ nleb V (nmul (Fin b : @num exact) q) = true.
Proof.
  intros Hp HP HD HV Hac Hc H H' Hi Hj Mi Mj Hb. exists (streams p Injection i j), (held p Injection i j).
  split; [by eapply C80_flux|]. split; [by eapply (C80_volume p g f Injection)|]. by apply held_between.
Qed.
(** A journey backwards carries the same stream for the same time. *)
Theorem C80_mirrored (p : @problem exact) d i j l : valid p → data finite p → pores_ok p → acyclic (net_arcs p) → conserves p →
  l ∈ all_journeys p d →
  reverse l ∈ all_journeys p (opposite d) ∧ stream p (opposite d) j i (reverse l) = stream p d i j l ∧
  (nltb n0 (stream p d i j l) = true → duration p (opposite d) (reverse l) = duration p d l).
Proof.
  intros Hp HD HV Hac Hc Hl. pose proof (proj1 (proj2 (C80_journeys p d Hp Hac) l) Hl) as [Hj Hr]. destruct (mirrored p d i j l Hc Hj Hr) as [Hj' E]. split_and!.
  - apply (C80_journeys p (opposite d) Hp Hac). split; [done|]. intros v Hv. apply Hr. by apply elem_of_reverse.
  - rewrite (journey_stream p Hp HD HV (opposite d) j i (reverse l) Hj'), (journey_stream p Hp HD HV d i j l Hj). by rewrite E.
  - intros Hs. rewrite (journey_stream p Hp HD HV d i j l Hj), exact_n0 in Hs. apply xltb_Fin in Hs.
    destruct (mirrored_time p Hp HD HV d i j l Hc Hj Hr Hs) as [-> ->]. done.
Qed.

(** ** Examples *)
(** From I1 to P go 1 by cell 1 in time 3 and 3 by cell 2 in time 4, from I2 to P 4 in time 1. *)
Lemma dm_conserves : conserves (@dm_p exact).
Proof.
  intros v Hv. cbn [pb_cells dm_p] in Hv.
  assert (v = 0 ∨ v = 1 ∨ v = 2 ∨ v = 3) as [->|[->|[->| ->]]] by lia; apply xeqb_eq; vm_compute; reflexivity.
Qed.
Example C80_ex_list : all_journeys (@dm_p exact) Injection =
  [[0]; [1]; [1; 0]; [2]; [2; 0]; [3]; [3; 1]; [3; 2]; [3; 1; 0]; [3; 2; 0]].
Proof. vm_compute. reflexivity. Qed.
Example C80_ex_stream :
  forallb (λ l, neqb (stream (@dm_p exact) Injection "I1"%string "P"%string l)
    (nofZ (match l with [3; 1; 0] => 1 | [3; 2; 0] => 3 | _ => 0 end))) (all_journeys (@dm_p exact) Injection) = true.
Proof. vm_compute. reflexivity. Qed.
Lemma dm_inject : ∃ sol, dm_run Injection [cs_new "I1"%string] = Ok (OSol sol).
Proof. pose proof C79_ex as (sol & H & _)%solves_inv. exists sol. exact H. Qed.
Example C80_ex_solves : solves (dm_run Production [cs_new "P"%string]) (λ sol, neqb (value_at (sol_concentration sol "P"%string) 0) n1) = true.
Proof. vm_compute. reflexivity. Qed.
Lemma dm_produce : ∃ sol, dm_run Production [cs_new "P"%string] = Ok (OSol sol).
Proof. pose proof C80_ex_solves as (sol & H & _)%solves_inv. exists sol. exact H. Qed.
Lemma dm_sums : neqb (streams (@dm_p exact) Injection "I1"%string "P"%string) (nofZ 4) = true ∧
  neqb (held (@dm_p exact) Injection "I1"%string "P"%string) (nofZ 15) = true.
Proof. split; vm_compute; reflexivity. Qed.
Lemma dm_i : "I1"%string ∈ map fst (pb_rates (@dm_p exact)). Proof. left. Qed.
Lemma dm_j : "P"%string ∈ map fst (pb_rates (@dm_p exact)). Proof. right. right. left. Qed.
Example C80_ex : ∃ sol sol', dm_run Injection [cs_new "I1"%string] = Ok (OSol sol) ∧ dm_run Production [cs_new "P"%string] = Ok (OSol sol') ∧
  pair_flux sol sol' "I1"%string "P"%string (pb_rates (@dm_p exact)) = Ok (@nofZ exact 4, nopp (@nofZ exact 4)) ∧
  pair_volume sol sol' (pb_pv (@dm_p exact)) "I1"%string "P"%string = Ok (@nofZ exact 15).
Proof.
  destruct dm_inject as [sol H]. destruct dm_produce as [sol' H']. exists sol, sol'. split; [exact H|]. split; [exact H'|].
  pose proof dm_sums as [E1%xeqb_eq E2%xeqb_eq]. rewrite <-E1, <-E2. split.
  - exact (C80_flux dm_p _ _ ex_ev ex_ev _ _ sol sol' "I1"%string "P"%string dm_valid dm_poses dm_finite dm_pores dm_acyclic dm_conserves H H'
      (λ _, elem_of_list_here _ _) (λ _, elem_of_list_here _ _) dm_i dm_j).
  - exact (C80_volume dm_p _ _ Injection ex_ev ex_ev _ _ sol sol' "I1"%string "P"%string dm_valid dm_poses dm_finite dm_pores dm_acyclic dm_conserves H H'
      (λ _, elem_of_list_here _ _) (λ _, elem_of_list_here _ _)).
Qed.
Lemma dm_way : [3; 2; 0] ∈ all_journeys (@dm_p exact) Injection.
Proof. rewrite C80_ex_list. by apply elem_of_list_In; cbn; tauto. Qed.
Example C80_ex_mirrored : stream (@dm_p exact) Production "P"%string "I1"%string [0; 2; 3] = stream (@dm_p exact) Injection "I1"%string "P"%string [3; 2; 0].
Proof. exact (proj1 (proj2 (C80_mirrored dm_p Injection "I1"%string "P"%string [3; 2; 0] dm_valid dm_finite dm_pores dm_acyclic dm_conserves dm_way))). Qed.

Print Assumptions C80_journeys.
Print Assumptions C80_flux.
Print Assumptions C80_volume.
Print Assumptions C80_between.
Print Assumptions C80_mirrored.
