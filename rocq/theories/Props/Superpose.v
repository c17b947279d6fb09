(** Property C92: times-of-flight are linear in the pore volumes. Toolbox.cpp and
    TracerTofSolver.cpp. *)
From Coq Require Import String QArith Qcanon.
From Verif.Model Require Import Base Num OMap Containers Solution AssembledConnections Tarjan TracerTofSolver Toolbox.
From Verif.Spec Require Import ToolboxSpec MonotoneSpec SameFlowSpec SuperposeSpec.
From Verif.Proofs Require Import OMapFacts ExactNum QcLra OrdLaws ToolboxThms ToolboxExact Superpose.
From Verif.Props Require Import Toolbox Monotone SameFlow.
Open Scope Z_scope.

(** Those of one well. *)
Theorem C92_well (x y : Qc) (p p1 p2 : @problem exact) g f g1 f1 g2 f2 d ev ev1 ev2 sets sets1 sets2 sol sol1 sol2 id v t t1 t2 :
  combined (Fin x : @num exact) (Fin y) p1 p2 p →
  valid p → poses p g f → data finite p → pores_ok p → valid p1 → poses p1 g1 f1 → data finite p1 → pores_ok p1 →
  valid p2 → poses p2 g2 f2 → data finite p2 → pores_ok p2 → acyclic (net_arcs p) →
  (∀ v, 0 ≤ v < pb_cells p → slow_cell d p v = false ∧ slow_cell d p1 v = false ∧ slow_cell d p2 v = false) →
  diagnose d ev g p f sets = Ok (OSol sol) → diagnose d ev1 g1 p1 f1 sets1 = Ok (OSol sol1) → diagnose d ev2 g2 p2 f2 sets2 = Ok (OSol sol2) →
  id ∈ map cs_id sets → id ∈ map cs_id sets1 → id ∈ map cs_id sets2 → 0 ≤ v < pb_cells p →
  om_find v (sol_tof sol id) = Some t → om_find v (sol_tof sol1 id) = Some t1 → om_find v (sol_tof sol2 id) = Some t2 →
  nltb t cutoff = true → nltb t1 cutoff = true → nltb t2 cutoff = true → t = nadd (nmul (Fin x : @num exact) t1) (nmul (Fin y : @num exact) t2).
Proof.
  intros ((A1 & A2 & A3) & (B1 & B2 & B3) & E) Hp HP HD HV Hp1 HP1 HD1 HV1 Hp2 HP2 HD2 HV2 Hac HS. destruct p as [n cs V m], p1 as [n1 cs1 V1 m1], p2 as [n2 cs2 V2 m2].
  cbn [pb_cells pb_conns pb_rates pb_pv] in A1, A2, A3, B1, B2, B3, E, HS |- *. subst n1 cs1 m1 n2 cs2 m2. intros H H1 H2 I I1 I2 Hv.
  exact (combined_well n cs m V V1 V2 x y E Hp HD HV g f HP Hp1 HD1 HV1 g1 f1 HP1 Hp2 HD2 HV2 g2 f2 HP2 Hac d (λ v Hv, proj1 (HS v Hv)) (λ v Hv, proj1 (proj2 (HS v Hv)))
    (λ v Hv, proj2 (proj2 (HS v Hv))) ev ev1 ev2 sets sets1 sets2 sol sol1 sol2 H H1 H2 id v t t1 t2 I I1 I2 Hv).
Qed.
(** Those of all wells together. *)
Theorem C92_all_wells (x y : Qc) (p p1 p2 : @problem exact) g f g1 f1 g2 f2 d ev ev1 ev2 sets sets1 sets2 sol sol1 sol2 v t t1 t2 :
  combined (Fin x : @num exact) (Fin y) p1 p2 p →
  valid p → poses p g f → data finite p → pores_ok p → valid p1 → poses p1 g1 f1 → data finite p1 → pores_ok p1 →
  valid p2 → poses p2 g2 f2 → data finite p2 → pores_ok p2 → acyclic (net_arcs p) →
  (∀ v, 0 ≤ v < pb_cells p → slow_cell d p v = false ∧ slow_cell d p1 v = false ∧ slow_cell d p2 v = false) →
  diagnose d ev g p f sets = Ok (OSol sol) → diagnose d ev1 g1 p1 f1 sets1 = Ok (OSol sol1) → diagnose d ev2 g2 p2 f2 sets2 = Ok (OSol sol2) → 0 ≤ v < pb_cells p →
  sol_global_tof sol !! Z.to_nat v = Some t → sol_global_tof sol1 !! Z.to_nat v = Some t1 → sol_global_tof sol2 !! Z.to_nat v = Some t2 →
  nltb t cutoff = true → nltb t1 cutoff = true → nltb t2 cutoff = true → t = nadd (nmul (Fin x : @num exact) t1) (nmul (Fin y : @num exact) t2).
Proof.
  intros ((A1 & A2 & A3) & (B1 & B2 & B3) & E) Hp HP HD HV Hp1 HP1 HD1 HV1 Hp2 HP2 HD2 HV2 Hac HS. destruct p as [n cs V m], p1 as [n1 cs1 V1 m1], p2 as [n2 cs2 V2 m2].
  cbn [pb_cells pb_conns pb_rates pb_pv] in A1, A2, A3, B1, B2, B3, E, HS |- *. subst n1 cs1 m1 n2 cs2 m2. intros H H1 H2 Hv.
  exact (combined_global n cs m V V1 V2 x y E Hp HD HV g f HP Hp1 HD1 HV1 g1 f1 HP1 Hp2 HD2 HV2 g2 f2 HP2 Hac d (λ v Hv, proj1 (HS v Hv)) (λ v Hv, proj1 (proj2 (HS v Hv)))
    (λ v Hv, proj2 (proj2 (HS v Hv))) ev ev1 ev2 sets sets1 sets2 sol sol1 sol2 H H1 H2 v t t1 t2 Hv).
Qed.

(** ** The unit of time *)
(** For the proof: the problem with [a] times smaller pores, of which the one with
    larger fluxes is a multiple. *)
Definition thinned (a : Qc) (p : @problem exact) : problem :=
  mkProblem (pb_cells p) (pb_conns p) (zip_with (λ x y, nadd (nmul (Fin (/ a)%Qc : @num exact) x) (nmul (Fin 0%Qc : @num exact) y)) (pb_pv p) (pb_pv p)) (pb_rates p).
Section unit_of_time.
Context (a : Qc) (Ha : (1 <= a)%Qc) (p : @problem exact) (Hp : valid p) (HD : data finite p) (HV : pores_ok p).
Lemma a_pos : (0 < a)%Qc. Proof. eapply Qclt_le_trans; [|exact Ha]. done. Qed.
Lemma a_inv : (0 <= / a)%Qc ∧ (/ a <= 1)%Qc ∧ (a * / a = 1)%Qc.
Proof.
  pose proof a_pos as H0. assert (a * / a = 1)%Qc as E by (apply Qcmult_inv_r; intros E; rewrite E in H0; by apply Qclt_not_eq in H0).
  revert E. generalize (/ a)%Qc. intros b E. assert (0 <= b)%Qc as Hb. { destruct (Qclt_le_dec b 0) as [Hlt|]; [|done]. exfalso. revert E Hlt H0. clear. intros. qcnra. }
  split; [done|]. split; [|done]. destruct (Qclt_le_dec 1 b) as [Hlt|]; [|done]. exfalso. revert E Hlt Ha. clear. intros. qcnra.
Qed.
Lemma thinned_pv x : x ∈ pb_pv (thinned a p) → ∃ z, Fin z ∈ pb_pv p ∧ x = Fin (/ a * z)%Qc.
Proof.
  cbn [thinned pb_pv]. intros (k & Hk)%elem_of_list_lookup. apply lookup_zip_with_Some in Hk as (u & w & -> & Hu & Hw). rewrite Hu in Hw. injection Hw as <-.
  apply elem_of_list_lookup_2 in Hu as Hin. destruct (da_pv _ _ HD u Hin) as [z ->]. exists z. split; [done|]. cbn [num nadd nmul exact xadd xmul]. f_equal. ring.
Qed.
Lemma thinned_valid : valid (thinned a p).
Proof. destruct Hp as [H1 H2 H3 H4 H5 H6 H7]. split; try done. cbn [thinned pb_pv pb_cells]. unfold zlen in *. rewrite zip_with_length, Nat.min_id. exact H6. Qed.
Lemma thinned_data : data finite (thinned a p).
Proof. destruct HD as [H1 H2 H3]. split; [..|]; try done. intros x Hx. destruct (thinned_pv x Hx) as (z & _ & ->). by eexists. Qed.
Lemma thinned_pores : pores_ok (thinned a p).
Proof.
  intros x Hx. destruct (thinned_pv x Hx) as (z & Hz & ->). pose proof (HV _ Hz) as H0. rewrite exact_n0 in *. apply xleb_Fin in H0. apply xleb_Fin.
  destruct a_inv as (H1 & _). by apply GaussSeidel.qmul_nonneg.
Qed.
Lemma thinned_poses g f : poses p g f → poses (thinned a p) g f.
Proof. by intros [? ? ? ? ? ?]. Qed.
Lemma hastened_thinned : hastened (Fin a : @num exact) p = scaled (Fin a : @num exact) (thinned a p).
Proof.
  unfold hastened, scaled. f_equal. apply list_eq. intros k. rewrite list_lookup_fmap. cbn [thinned pb_pv]. rewrite lookup_zip_with.
  destruct (pb_pv p !! k) as [x|] eqn:E; [|done]. destruct (da_pv _ _ HD x) as [z ->]; [by eapply elem_of_list_lookup_2|]. cbn. f_equal. f_equal.
  destruct a_inv as (_ & _ & Ei). transitivity ((a * / a) * z)%Qc; [rewrite Ei; ring|ring].
Qed.
Lemma thinned_grown : grown (thinned a p) p.
Proof.
  split; [done|]. apply Forall2_same_length_lookup. cbn [thinned pb_pv]. split; [by rewrite zip_with_length, Nat.min_id|].
  intros k x y Hx Hy. apply lookup_zip_with_Some in Hx as (u & w & -> & Hu & Hw). rewrite Hu in Hw, Hy. injection Hw as <-. injection Hy as <-.
  apply elem_of_list_lookup_2 in Hu. destruct (da_pv _ _ HD u Hu) as [z ->]. pose proof (HV _ Hu) as H0. rewrite exact_n0 in H0. apply xleb_Fin in H0.
  cbn [num nadd nmul exact xadd xmul]. apply xleb_Fin. destruct a_inv as (_ & H1 & _). revert H0 H1. generalize (/ a)%Qc. clear. intros. qcnra.
Qed.
Lemma thinned_fast d v : 0 ≤ v < pb_cells p → slow_cell d p v = false → slow_cell d (thinned a p) v = false.
Proof.
  intros Hv. rewrite (Raise.slow_is_late d p v Hp HD HV), (Raise.slow_is_late d _ v thinned_valid thinned_data thinned_pores).
  unfold Balance.late. change (Duality.Tt (thinned a p) d v) with (Duality.Tt p d v). rewrite !Qc_ltb_false. intros H. eapply Qcle_trans; [|exact H].
  unfold Qcdiv. apply Qcmult_le_compat_r.
  2:{ destruct ExactRun.gs_consts as (_ & _ & _ & _ & _ & _ & HM). by apply Qclt_le_weak. }
  unfold Balance.pvq, pore. cbn [thinned pb_pv]. rewrite lookup_zip_with. destruct (pb_pv p !! Z.to_nat v) as [x|] eqn:E; cbn [default mbind option_bind]; [|apply Qcle_refl].
  apply elem_of_list_lookup_2 in E. destruct (da_pv _ _ HD x E) as [z ->]. pose proof (HV _ E) as H0. rewrite exact_n0 in H0. apply xleb_Fin in H0.
  cbn. destruct a_inv as (_ & H1 & _). revert H0 H1. generalize (/ a)%Qc. clear. intros. qcnra.
Qed.
End unit_of_time.

(** With all fluxes and rates [a] times as large, concentrations are the same and
    times-of-flight are divided by [a]. *)
Theorem C92_unit_of_time (a : Qc) (p : @problem exact) g f g' f' d ev ev' sets sets' sol sol' : (1 <= a)%Qc →
  valid p → poses p g f → data finite p → pores_ok p → poses (hastened (Fin a : @num exact) p) g' f' → acyclic (net_arcs p) →
  (∀ v, 0 ≤ v < pb_cells p → slow_cell d p v = false) →
  diagnose d ev g p f sets = Ok (OSol sol) → diagnose d ev' g' (hastened (Fin a : @num exact) p) f' sets' = Ok (OSol sol') →
  (∀ id, id ∈ map cs_id sets → id ∈ map cs_id sets' → ∀ v, om_find v (sol_concentration sol' id) = om_find v (sol_concentration sol id)) ∧
  (∀ id v t t', id ∈ map cs_id sets → id ∈ map cs_id sets' → 0 ≤ v < pb_cells p → om_find v (sol_tof sol id) = Some t → om_find v (sol_tof sol' id) = Some t' →
    nltb t cutoff = true → nltb t' cutoff = true → t' = ndiv t (Fin a : @num exact)) ∧
  (∀ v t t', 0 ≤ v < pb_cells p → sol_global_tof sol !! Z.to_nat v = Some t → sol_global_tof sol' !! Z.to_nat v = Some t' →
    nltb t cutoff = true → nltb t' cutoff = true → t' = ndiv t (Fin a : @num exact)).
Proof.
  intros Ha Hp HP HD HV HP' Hac HS H H'.
  pose proof (thinned_valid a p Hp) as Q1. pose proof (thinned_data a p HD) as Q2. pose proof (thinned_pores a Ha p HD HV) as Q3. pose proof (thinned_poses a p g f HP) as Q4.
  rewrite (hastened_thinned a Ha p HD) in HP', H'.
  rewrite (proj2 (SameFlow.C54_scaled a (thinned a p) g f g' f' d ev' sets' (a_pos a Ha) Q1 Q4 HP')) in H'.
  assert (∀ v, 0 ≤ v < pb_cells p → slow_cell d (thinned a p) v = false) as QS by (intros; by apply thinned_fast; auto).
  assert (combined (Fin (/ a)%Qc : @num exact) (Fin 0%Qc) p p (thinned a p)) as HC by done.
  assert (∀ t : @num exact, finite t → nadd (nmul (Fin (/ a)%Qc : @num exact) t) (nmul (Fin 0%Qc : @num exact) t) = ndiv t (Fin a : @num exact)) as arith.
  { intros t [z ->]. cbn [num nadd nmul ndiv exact xadd xmul]. unfold xdiv. assert (Qc_eqb a 0 = false) as ->.
    { destruct (Qc_eqb a 0) eqn:E; [|done]. apply Qc_eqb_true in E. pose proof (a_pos a Ha) as H0. rewrite E in H0. by apply Qclt_not_eq in H0. }
    f_equal. unfold Qcdiv. ring. }
  split; [|split].
  - intros id Hid Hid' v. symmetry.
    apply (C65_tof_grows (thinned a p) p g f g f d ev' ev sets' sets sol' sol (thinned_grown a Ha p HD HV) Q1 Q4 Q2 Q3 Hp HP Hac); try done.
    intros w Hw. by rewrite (HS w Hw), (QS w Hw).
  - intros id v t t' Hid Hid' Hv Et Et' Lt Lt'. rewrite <-arith.
    + apply (C92_well (/ a)%Qc 0%Qc (thinned a p) p p g f g f g f d ev' ev ev sets' sets sets sol' sol sol id v t' t t); try done. intros w Hw. by rewrite (HS w Hw), (QS w Hw).
    + destruct (Balance.local_exact p g f Hp HP HD HV Hac d ev sets sol id H (λ _, Hid)) as (τ & _ & X). destruct (X v) as (_ & _ & Y & _).
      rewrite (below_cap _ _ (Y t Et) Lt). by eexists.
  - intros v t t' Hv Et Et' Lt Lt'. rewrite <-arith.
    + apply (C92_all_wells (/ a)%Qc 0%Qc (thinned a p) p p g f g f g f d ev' ev ev sets' sets sets sol' sol sol v t' t t); try done. intros w Hw. by rewrite (HS w Hw), (QS w Hw).
    + destruct (Balance.global_exact p g f Hp HP HD HV Hac d ev sets sol H) as (_ & τ & c & X). destruct (X v Hv) as (_ & _ & Y & _). rewrite Y in Et. injection Et as Et.
      rewrite (below_cap _ _ (eq_sym Et) Lt). by eexists.
Qed.

(** ** Example *)
(** Two ways from I1 to cell 3, and a second well on one of them. *)
Definition su_p {N : Num} (V : list Z) : problem := mkProblem 4
  [(0, 1, [nofZ 1]); (0, 2, [nofZ 1]); (1, 3, [nofZ 1]); (2, 3, [nofZ 1])] (map nofZ V)
  [("I1"%string, [(0, nofZ 2)]); ("I2"%string, [(1, nofZ 1)]); ("P"%string, [(3, nofZ (-2))])].
Definition su1 : list Z := [1; 1; 100; 1].
Definition su2 : list Z := [2; 5; 0; 3].
(** Twice the first and three times the second. *)
Definition su3 : list Z := [8; 17; 200; 11].
Notation su_ok V := (V = su1 ∨ V = su2 ∨ V = su3).
Lemma su_valid {N : Num} V : su_ok V → valid (su_p V). Proof. intros [->|[->| ->]]; valid_tac. Qed.
Lemma su_poses {N : Num} V : su_ok V → poses (su_p V) (graph_for (su_p V)) (values_for (su_p V) 1).
Proof. intros HV. apply posed; [by apply su_valid|forall_tac|reflexivity]. Qed.
Lemma su_int {N : Num} V : su_ok V → data is_int (su_p V).
Proof. intros [->|[->| ->]]; split; intros; cbv [su_p su1 su2 su3 pb_conns pb_rates pb_pv map fst snd] in *; int_tac. Qed.
Lemma su_arcs V : net_arcs (@su_p exact V) = [(0, 1, nofZ 1); (0, 2, nofZ 1); (1, 3, nofZ 1); (2, 3, nofZ 1)].
Proof. vm_compute. reflexivity. Qed.
Lemma su_pores V : su_ok V → pores_ok (@su_p exact V).
Proof. intros [->|[->| ->]]; apply pores_by; vm_compute; reflexivity. Qed.
Lemma su_combined : combined (Fin (Q2Qc 2) : @num exact) (Fin (Q2Qc 3)) (su_p su1) (su_p su2) (su_p su3).
Proof. split; [done|]. split; [done|]. vm_compute. reflexivity. Qed.
Lemma su_fast v : 0 ≤ v < 4 → slow_cell Injection (@su_p exact su3) v = false ∧ slow_cell Injection (@su_p exact su1) v = false ∧ slow_cell Injection (@su_p exact su2) v = false.
Proof. intros Hv. assert (v = 0 ∨ v = 1 ∨ v = 2 ∨ v = 3) as [->|[->|[->| ->]]] by lia; vm_compute; done. Qed.
Definition su_sets : list cellset := [cs_new "I1"%string; cs_new "I2"%string].
Definition su_run {N : Num} V := diagnose Injection ex_ev (graph_for (@su_p N V)) (su_p V) (values_for (su_p V) 1) su_sets.
(** In cell 3 the times-of-flight of I1 are 407/6, 10/3 and 437/3, which is
    2 * 407/6 + 3 * 10/3. *)
Example C92_runs : solves (@su_run exact su1) (λ s1, solves (@su_run exact su2) (λ s2, solves (@su_run exact su3) (λ s3,
  let at3 s := value_at (sol_tof s "I1"%string) 3 in
  neqb (at3 s1) (frac 407 6) && neqb (at3 s2) (frac 10 3) && neqb (at3 s3) (frac 437 3) &&
  nltb (at3 s1) cutoff && nltb (at3 s2) cutoff && nltb (at3 s3) cutoff &&
  neqb (at3 s3) (nadd (nmul (nofZ 2) (at3 s1)) (nmul (nofZ 3) (at3 s2)))))) = true.
Proof. vm_compute. reflexivity. Qed.
Example C92_ex s1 s2 s3 : @su_run exact su1 = Ok (OSol s1) → @su_run exact su2 = Ok (OSol s2) → @su_run exact su3 = Ok (OSol s3) →
  (∀ v t t1 t2, 0 ≤ v < 4 → om_find v (sol_tof s3 "I1"%string) = Some t → om_find v (sol_tof s1 "I1"%string) = Some t1 → om_find v (sol_tof s2 "I1"%string) = Some t2 →
    nltb t cutoff = true → nltb t1 cutoff = true → nltb t2 cutoff = true → t = nadd (nmul (Fin (Q2Qc 2) : @num exact) t1) (nmul (Fin (Q2Qc 3) : @num exact) t2)) ∧
  (∀ v t t1 t2, 0 ≤ v < 4 → sol_global_tof s3 !! Z.to_nat v = Some t → sol_global_tof s1 !! Z.to_nat v = Some t1 → sol_global_tof s2 !! Z.to_nat v = Some t2 →
    nltb t cutoff = true → nltb t1 cutoff = true → nltb t2 cutoff = true → t = nadd (nmul (Fin (Q2Qc 2) : @num exact) t1) (nmul (Fin (Q2Qc 3) : @num exact) t2)).
Proof.
  intros H1 H2 H3. assert (su_ok su1) as O1 by (left; reflexivity). assert (su_ok su2) as O2 by (right; left; reflexivity). assert (su_ok su3) as O3 by (right; right; reflexivity).
  pose proof (data_impl _ _ _ int_finite (su_int su1 O1)) as D1. pose proof (data_impl _ _ _ int_finite (su_int su2 O2)) as D2. pose proof (data_impl _ _ _ int_finite (su_int su3 O3)) as D3.
  assert (acyclic (net_arcs (@su_p exact su3))) as Hac by (apply (acyclic_rank (λ z, z)); rewrite su_arcs; forall_tac). split; intros v t t1 t2 Hv.
  - exact (C92_well _ _ _ _ _ _ _ _ _ _ _ _ _ _ _ _ _ _ s3 s1 s2 "I1"%string v t t1 t2 su_combined (su_valid su3 O3) (su_poses su3 O3) D3 (su_pores su3 O3)
      (su_valid su1 O1) (su_poses su1 O1) D1 (su_pores su1 O1) (su_valid su2 O2) (su_poses su2 O2) D2 (su_pores su2 O2) Hac su_fast H3 H1 H2 ltac:(left) ltac:(left) ltac:(left) Hv).
  - exact (C92_all_wells _ _ _ _ _ _ _ _ _ _ _ _ _ _ _ _ _ _ s3 s1 s2 v t t1 t2 su_combined (su_valid su3 O3) (su_poses su3 O3) D3 (su_pores su3 O3)
      (su_valid su1 O1) (su_poses su1 O1) D1 (su_pores su1 O1) (su_valid su2 O2) (su_poses su2 O2) D2 (su_pores su2 O2) Hac su_fast H3 H1 H2 Hv).
Qed.
(** Fluxes and rates doubled: 407/6 becomes 407/12. *)
Definition su_h : @problem exact := hastened (Fin (Q2Qc 2) : @num exact) (su_p su1).
Definition su_hrun := @diagnose exact Injection ex_ev (graph_for su_h) su_h (values_for su_h 1) su_sets.
Lemma su_h_valid : valid su_h.
Proof.
  assert (su_ok su1) as O1 by (left; reflexivity). pose proof (data_impl _ _ _ int_finite (su_int (N := exact) su1 O1)) as HD.
  unfold su_h. rewrite (hastened_thinned (Q2Qc 2) ltac:(done) _ HD). apply Scaling.sc_valid; [done|]. apply thinned_valid. by apply su_valid.
Qed.
Lemma su_h_poses : poses su_h (graph_for su_h) (values_for su_h 1).
Proof. apply posed; [apply su_h_valid|forall_tac|reflexivity]. Qed.
Example C92_unit_runs : solves su_hrun (λ s : @solution exact, neqb (value_at (sol_tof s "I1"%string) 3) (frac 407 12)) = true.
Proof. vm_compute. reflexivity. Qed.
Example C92_unit_ex s s' : @su_run exact su1 = Ok (OSol s) → su_hrun = Ok (OSol s') →
  (∀ v, om_find v (sol_concentration s' "I1"%string) = om_find v (sol_concentration s "I1"%string)) ∧
  (∀ v t t', 0 ≤ v < 4 → om_find v (sol_tof s "I1"%string) = Some t → om_find v (sol_tof s' "I1"%string) = Some t' →
    nltb t cutoff = true → nltb t' cutoff = true → t' = ndiv t (Fin (Q2Qc 2) : @num exact)).
Proof.
  intros H H'. assert (su_ok su1) as O1 by (left; reflexivity).
  destruct (C92_unit_of_time (Q2Qc 2) (su_p su1) (graph_for (@su_p exact su1)) (values_for (su_p su1) 1) (graph_for su_h) (values_for su_h 1) Injection ex_ev ex_ev su_sets su_sets s s') as (A & B & _); [done|by apply su_valid|by apply su_poses|
    exact (data_impl _ _ _ int_finite (su_int su1 O1))|by apply su_pores|exact su_h_poses|apply (acyclic_rank (λ z, z)); rewrite su_arcs; forall_tac| |exact H|exact H'|].
  - intros v Hv. by apply su_fast.
  - split; [apply A; left|]. intros v t t' Hv. apply B; [left|left|exact Hv].
Qed.
Print Assumptions C92_well.
Print Assumptions C92_all_wells.
Print Assumptions C92_unit_of_time.
