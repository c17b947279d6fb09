(** Diagnostics computed with doubles, on networks with cycles: consequences of
    the equations being met almost. *)
From Coq Require Import ZArith Reals Lra QArith Qcanon Qreals.
From Coq.Floats Require Import SpecFloat.
From Flocq Require Import Core.Core IEEE754.BinarySingleNaN.
From Verif.Proofs Require Import B64Bridge.
From Verif.Model Require Import Base Num OMap Containers Solution AssembledConnections Tarjan TracerTofSolver Toolbox.
From Verif.Spec Require Import AcyclicSpec DerivedSpec MirrorSpec CyclicSpec AccuracySpec ResidualSpec.
From Verif.Proofs Require Import Util OMapFacts ExactNum QcLra OrdLaws B64Laws DerivedExact SolverRun SolverTop SolverGen GaussSeidel ExactRun ToolboxRates ToolboxVal ToolboxThms ToolboxExact Duality Balance Cyclic Rounding Accuracy Residual ResidualSum.
Open Scope Z_scope.

Section top.
Context (p : @problem b64) (g : cgraph) (f : cvalues) (Hp : valid p) (HP : poses p g f) (HD : @data b64 b64_ok p) (OR : ordinary p).
Context (Hk : Z.of_nat (all_costs p) ≤ 2 ^ 50).
Notation p' := (exactly p).
Notation n := (pb_cells p).
Notation all := (seqZ 0 n).
Context (HF : data finite p') (Hc : conserves p') (Hself : ∀ v, ¬ flows (net_arcs p) v v).
Context (d : direction) (ev : env) (sets : list cellset) (sol : solution) (H : diagnose d ev g p f sets = Ok (OSol sol)).
Local Notation fin x := (Fin x : @num exact).
Notation x id v := (q_of (value_at (sol_concentration sol id) v)).
Notation r := (tenth9 + errors (all_costs p))%Qc.
Definition hx (id : cellset_id) (v : Z) : Qc := qv (x id v).

Lemma x_fin id v : x id v = fin (hx id v).
Proof.
  unfold hx. destruct (unit_inv _ (conc_unit p g f Hp HP HD OR Hk d ev sets sol id v H)) as (b & E & Fb & _). rewrite E.
  destruct (q_val (B2SF b)) as [[q Eq] _]; [by destruct b|]. by rewrite Eq.
Qed.
Lemma no_self v : regular (flow d p) v.
Proof.
  left. intros Hf. apply (Hself v). destruct d; [done|]. cbn [flow] in Hf. unfold flows in *.
  unfold turn in Hf. rewrite map_map in Hf. apply elem_of_list_fmap in Hf as ([[a b] w] & Eq & Ha). cbn in Eq. injection Eq as <- <-.
  apply elem_of_list_fmap. by exists (v, v, w).
Qed.
Lemma errors_mono i j : (i ≤ j)%nat → (errors i <= errors j)%Qc.
Proof.
  intros Hij. assert (0 <= pow2 (-51))%Qc as H2. { apply QR_le. rewrite QR_0, QR_pow2. apply Raux.bpow_ge_0. }
  unfold errors. apply Qcmult_le_compat_r; [|done]. unfold Qcle. cbn. rewrite !Qreduction.Qred_correct. unfold Qle. cbn. lia.
Qed.
Notation Hp' := (Accuracy.ex_valid p Hp).
Notation HV' := (ex_pores_ok p OR).
Lemma met_all id v : (is_well d (pb_rates p) id → id ∈ map cs_id sets) → 0 ≤ v < n → met_within r p' d id (λ u, fin (hx id u)) v.
Proof.
  intros Hid Hv. destruct (decide (id ∈ map cs_id sets)) as [Hin|Hout].
  - pose proof (met p g f Hp HP HD OR Hk d ev sets sol id v H Hin Hv (no_self v)) as (t & e & Et & [H1 H2] & E).
    exists t, e. split; [done|]. split.
    + assert (0 <= t)%Qc as Ht. { pose proof (Tt_pos p' Hp' HF HV' d v) as P. unfold Duality.Tt in P. by rewrite Et in P. }
      pose proof (errors_mono _ _ (cost_le p d v)) as He. assert ((tenth9 + errors (cost d p v)) * t <= r * t)%Qc as HB by (apply Qcmult_le_compat_r; [qclra|done]).
      set (a := ((tenth9 + errors (cost d p v)) * t)%Qc) in *. set (b := (r * t)%Qc) in *. clearbody a b. split; qclra.
    + cbv beta in E. rewrite x_fin in E. rewrite E. f_equal. f_equal. apply (mix_ext _ _ (λ _, None)). intros u _. apply x_fin.
  - apply (met_left p' Hp' HF HV' r d). destruct (diagnose_other p g f Hp HP d ev sets sol id H Hout) as [_ E].
    assert (∀ u, hx id u = 0%Qc) as Hz. { intros u. unfold hx, value_at. by rewrite E. }
    assert (Duality.rq p' d id v = 0%Qc) as Hr.
    { unfold Duality.rq. rewrite ex_well_rate. destruct (well_rate d (pb_rates p) id v) as [y|] eqn:Ey; [|done]. exfalso. apply Hout, Hid. by exists v, y. }
    unfold Cyclic.leftover. rewrite Hz, Hr, qsum_0 by (intros u _; rewrite Hz; ring).
    replace (0 + 0 - Duality.Tt p' d v * 0)%Qc with 0%Qc by ring. change (qab 0) with 0%Qc.
    apply qmul_nonneg; [|apply (Tt_pos p' Hp' HF HV')]. apply QR_le. rewrite bound_R, QR_0.
    pose proof (pos_INR (all_costs p)). pose proof eps_pos. assert (0 <= INR (all_costs p) * (2 * eps))%R by (apply Rmult_le_pos; lra). lra.
Qed.

Lemma allowance_q : allowance r p' d = fin (r * qsum (map (Duality.Tt p' d) all))%Qc.
Proof. unfold allowance. rewrite (scope_q p' Hp' HF HV'). done. Qed.
Lemma distance_q a b : distance (fin a) (fin b) = fin (qab (a - b)).
Proof. done. Qed.
Lemma b64_recovered id : (is_well d (pb_rates p) id → id ∈ map cs_id sets) →
  let rate := sum_left (omap (well_rate d (pb_rates p') id) all) in
  let back := sum_left (map (λ v, nmul (cell_total (opposite d) (pb_rates p') v) (x id v)) all) in
  nleb (distance rate back) (allowance r p' d) = true.
Proof.
  intros Hid. cbn zeta. rewrite (well_total p' Hp' HF d id : sum_left (omap (well_rate d (pb_rates p') id) all) = _).
  rewrite (sum_left_fin _ (λ v, Balance.rates p' (opposite d) v * hx id v)%Qc).
  2:{ intros v _. by rewrite (cell_total_q p' Hp' HF HV'), x_fin. }
  rewrite allowance_q. apply xleb_Fin. apply (met_recovered p' Hp' HF HV' Hc r d id (hx id)). intros v Hv. by apply met_all.
Qed.
Lemma b64_error id (c : Z → Qc) : (is_well d (pb_rates p) id → id ∈ map cs_id sets) → tracer_solution p' d [id] (λ v, fin (c v)) →
  nleb (sum_left (map (λ v, nmul (cell_total (opposite d) (pb_rates p') v) (distance (fin (c v)) (x id v))) all)) (allowance r p' d) = true.
Proof.
  intros Hid HS. rewrite (sum_left_fin _ (λ v, Balance.rates p' (opposite d) v * qab (c v - hx id v))%Qc).
  2:{ intros v _. by rewrite (cell_total_q p' Hp' HF HV'), x_fin. }
  rewrite allowance_q. apply xleb_Fin. apply (met_error p' Hp' HF HV' Hc r d id (hx id) c); [|done]. intros v Hv. by apply met_all.
Qed.
Lemma b64_shares : (∀ id, is_well d (pb_rates p) id → id ∈ map cs_id sets) →
  nleb (sum_left (map (λ v, nmul (cell_total (opposite d) (pb_rates p') v)
      (distance n1 (sum_left (map (λ id, x id v) (map fst (pb_rates p)))))) all)) (nmul (nofZ (zlen (pb_rates p))) (allowance r p' d)) = true.
Proof.
  intros Hid. assert (map fst (pb_rates p') = map fst (pb_rates p)) as Ek by (cbn [exactly pb_rates]; rewrite map_map; apply map_ext; by intros []).
  rewrite (sum_left_fin _ (λ v, Balance.rates p' (opposite d) v * qab (1 - qsum (map (λ id, hx id v) (map fst (pb_rates p')))))%Qc).
  2:{ intros v _. rewrite (cell_total_q p' Hp' HF HV'), Ek. rewrite (sum_left_fin _ (λ id, hx id v)) by (intros; apply x_fin). rewrite exact_n1. done. }
  rewrite allowance_q. assert (zlen (pb_rates p) = zlen (pb_rates p')) as -> by (unfold zlen; cbn [exactly pb_rates]; by rewrite map_length).
  pose proof (met_shares p' Hp' HF HV' Hc r d hx) as HS. specialize (HS (λ id _ v Hv, met_all id v (Hid id) Hv)).
  apply xleb_Fin. exact HS.
Qed.
End top.
