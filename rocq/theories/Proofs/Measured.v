(** Diagnostics computed with doubles from inexact data: property C89. *)
From Coq Require Import ZArith Reals Lra Psatz QArith Qcanon Qreals String.
From Coq.Floats Require Import SpecFloat.
From Verif.Model Require Import Base Num OMap Containers Solution AssembledConnections Tarjan TracerTofSolver Toolbox.
From Verif.Spec Require Import ToolboxSpec AcyclicSpec MonotoneSpec SameFlowSpec AccuracySpec ConditionSpec MeasuredSpec.
From Verif.Proofs Require Import Util OMapFacts ExactNum QcLra OrdLaws B64Laws OppLaws TofLaws ToolboxRates ToolboxFlow ToolboxPose ToolboxThms ToolboxExact GaussSeidel ExactRun Duality SameFlow Acyclic Rounding Accuracy Balance Condition.
Open Scope Z_scope.

(** The problem whose connections carry a single phase, the sum of the original
    ones. *)
Definition netted {N : Num} (p : problem) : problem :=
  mkProblem (pb_cells p) (map (λ x : Z * Z * list num, (x.1, [sum_left x.2])) (pb_conns p)) (pb_pv p) (pb_rates p).

Lemma netted_q (s : @num b64) : q_of (sum_left [s]) = q_of s.
Proof. unfold sum_left. cbn [foldl]. destruct s as [[]|[]| |]; reflexivity. Qed.
Lemma netted_x (x : @num exact) : sum_left [x] = x.
Proof. destruct x; try done. unfold sum_left. cbn [foldl]. rewrite exact_n0. change (Fin (0 + q)%Qc = Fin q). f_equal. ring. Qed.
Lemma netted_arc (x : Z * Z * list (@num b64)) : @net_arc b64 (x.1, [sum_left x.2]) = @net_arc b64 x.
Proof. unfold net_arc. cbn [fst snd]. generalize (sum_left x.2). intros s. unfold sum_left. cbn [foldl]. destruct s as [[]|[]| |[]]; reflexivity. Qed.
Lemma netted_arcs (p : @problem b64) : net_arcs (netted p) = net_arcs p.
Proof. unfold net_arcs. cbn [netted pb_conns]. induction (pb_conns p) as [|x l IH]; [done|]. cbn [map omap list_omap]. by rewrite netted_arc, IH. Qed.
Lemma netted_flow d (p : @problem b64) : flow d (netted p) = flow d p.
Proof. destruct d; cbn [flow]; by rewrite netted_arcs. Qed.
Lemma netted_cost d (p : @problem b64) v : cost d (netted p) v = cost d p v.
Proof. unfold cost. by rewrite netted_flow. Qed.
Lemma netted_budget d (p : @problem b64) kc kt : budget d p kc kt → budget d (netted p) kc kt.
Proof. intros [H1 H2 H3 H4 H5]. split; intros *; rewrite ?netted_cost, ?netted_flow; auto. Qed.
Lemma netted_valid (p : @problem b64) : valid p → valid (netted p).
Proof.
  intros [H1 H2 H3 [np H4] H5 H6 H7]. split; cbn [netted pb_cells pb_conns pb_pv pb_rates]; try done.
  - by destruct (pb_conns p).
  - by apply Forall_map.
  - exists 1. apply Forall_map, Forall_forall. by intros.
Qed.
Lemma netted_data (p : @problem b64) : @data b64 b64_ok p → @data b64 b64_ok (netted p).
Proof.
  intros [H1 H2 H3]. split; [|done..]. cbn [netted pb_conns]. intros x w Hx Hw. apply elem_of_list_fmap in Hx as (y & -> & Hy).
  cbn [snd] in Hw. apply elem_of_list_singleton in Hw as ->. specialize (H1 y). unfold sum_left.
  assert (b64_ok (@n0 b64)) as H0 by done. revert H0. generalize (@n0 b64). induction (y.2) as [|z l IH]; intros a Ha; [done|]. cbn [foldl]. apply IH.
  - intros z' _ Hz'. apply H1; [done|by right].
  - apply (o_ok_add b64 b64_laws); [done|]. apply H1; [done|left].
Qed.
Lemma netted_net (p : @problem b64) x : x ∈ pb_conns (netted p) → q_of (sum_left x.2) = sum_left (map q_of x.2).
Proof. cbn [netted pb_conns]. intros (y & -> & _)%elem_of_list_fmap. cbn [snd map]. by rewrite netted_q, netted_x. Qed.
Lemma netted_exact_arcs (p : @problem b64) : net_arcs (exactly (netted p)) = map qarc (net_arcs (netted p)).
Proof.
  unfold net_arcs. pose proof (netted_net p) as H. cbn [exactly pb_conns]. induction (pb_conns (netted p)) as [|x l IH]; [done|]. cbn [map omap list_omap].
  assert (@net_arc exact (x.1, map q_of x.2) = qarc <$> @net_arc b64 x) as ->.
  { unfold net_arc. cbn [fst snd]. rewrite <-(H x ltac:(left)), q_gt0, q_lt0, <-q_opp. destruct (nltb n0 (sum_left x.2)); [done|]. by destruct (nltb (sum_left x.2) n0). }
  destruct (net_arc x); cbn [fmap option_fmap option_map map]; [f_equal|]; (apply IH; intros; apply H; by right).
Qed.
Lemma netted_ordinary (p : @problem b64) : moderate p → ordinary (netted p).
Proof.
  intros [H1 H2 H3]. split.
  - apply netted_net.
  - intros a. rewrite netted_exact_arcs, netted_arcs. intros (b & -> & Hb)%elem_of_list_fmap. by apply H1.
  - intros d id c x. rewrite ex_well_rate. cbn [netted pb_rates]. destruct (well_rate d (pb_rates p) id c) as [y|] eqn:E; [|done].
    cbn. intros [= <-]. by eapply H2.
  - intros x. cbn [exactly netted pb_pv]. intros (y & -> & Hy)%elem_of_list_fmap. by apply H3.
Qed.

Lemma qc_eq_le (a b : Qc) : a = b → (a <= b)%Qc.
Proof. intros ->. apply Qcle_refl. Qed.

Section measured.
Local Open Scope Qc_scope.
Context (e : Qc) (He : 0 <= e) (q : @problem exact) (p : @problem b64) (HM : measured e q p).
Notation q' := (exactly (netted p)).

Lemma me_nearby : nearby e q q'.
Proof.
  destruct HM as [H1 H2 H3 H4]. split; cbn [exactly netted pb_cells pb_conns pb_pv pb_rates].
  - done.
  - rewrite map_map. apply Forall2_fmap_r. eapply Forall2_impl; [exact H2|]. intros x y [Hx Hy]. cbn [compose fst snd map]. rewrite netted_x. by split.
  - apply Forall2_fmap_r. exact H3.
  - apply Forall2_fmap_r. eapply Forall2_impl; [exact H4|]. intros x y [Hx Hy]. cbn [compose fst snd]. split; [done|].
    apply Forall2_fmap_r. eapply Forall2_impl; [exact Hy|]. intros a b [Ha Hb]. by split.
Qed.
Lemma me_finite : data finite q'.
Proof.
  pose proof me_nearby as [_ H2 H3 H4]. split.
  - intros x w Hx Hw. apply elem_of_list_lookup in Hx as [i Hi]. destruct (Forall2_lookup_r _ _ _ _ _ H2 Hi) as (y & _ & _ & Ha).
    cbn [exactly netted pb_conns] in Hi. rewrite map_map in Hi. apply list_lookup_fmap_inv in Hi as (z & -> & _). cbn [fst snd map] in *.
    apply elem_of_list_singleton in Hw as ->. rewrite netted_x in Ha. by apply about_fin in Ha as [_ ?].
  - intros x k Hx Hk. apply elem_of_list_lookup in Hx as [i Hi]. destruct (Forall2_lookup_r _ _ _ _ _ H4 Hi) as (y & _ & _ & Ha).
    apply elem_of_list_lookup in Hk as [j Hj]. destruct (Forall2_lookup_r _ _ _ _ _ Ha Hj) as (z & _ & _ & Hz). by apply about_fin in Hz as [_ ?].
  - intros x Hx. apply elem_of_list_lookup in Hx as [i Hi]. destruct (Forall2_lookup_r _ _ _ _ _ H3 Hi) as (y & _ & Ha). by apply about_fin in Ha as [_ ?].
Qed.

Notation U := (1 + pow2 (-52)).
Lemma U_pos : 0 < pow2 (-52).
Proof. done. Qed.
Lemma tracks_by k K x y x' : about e K x y → nleb n0 y = true → close k x' y → tracks e K k x x'.
Proof.
  intros Ha Hy (b & c & -> & -> & H1 & H2). apply (about_factor e He) in Ha as (a & r & -> & Er & Hr & Hrt). injection Er as ->.
  rewrite exact_n0 in Hy. apply xleb_Fin in Hy.
  assert (0 <= a) as Ha. { destruct (Qclt_le_dec a 0) as [Hn|]; [|done]. exfalso. revert Hy Hn Hr. clear. intros. qcnra. }
  destruct (Hrt Ha) as (_ & _ & H3 & H4). unfold E in H3, H4. exists a, b. split; [done|]. split; [done|].
  pose proof (E_ge e He K) as HE. unfold E in HE. pose proof (E_ge (pow2 (-52)) ltac:(by apply Qclt_le_weak, U_pos) k) as HU. unfold E in HU.
  revert H1 H2 H3 H4 HE HU Ha Hy. generalize ((1 + e) ^ K) (U ^ k). intros F G H1 H2 H3 H4 HE HU Ha Hy. split.
  - transitivity (a * r * F); [done|]. transitivity (b * G * F); [|apply Qcle_refl || (rewrite <-!Qcmult_assoc; rewrite (Qcmult_comm G F); apply Qcle_refl)].
    apply Qcmult_le_compat_r; [done|]. transitivity 1; [done|done].
  - transitivity (a * r * G); [done|]. transitivity (a * F * G); [|rewrite <-Qcmult_assoc; apply Qcle_refl].
    apply Qcmult_le_compat_r; [done|]. transitivity 1; [done|done].
Qed.

Section cutoff.
Context (HV : pores_ok q).
Context (d : direction) (AW : away_from_cutoff e d q p).

Lemma me_fast v : (0 ≤ v < pb_cells q)%Z → ∃ T T' V V', total_in q d v = Fin T ∧ total_in q' d v = Fin T' ∧
  ndiv (pore q v) cutoff = Fin V ∧ ndiv (pore q' v) cutoff = Fin V' ∧ rt e 1 T T' ∧ rt e 1 V V'.
Proof.
  intros Hv. destruct (near_total e He q q' me_nearby d v) as (T & T' & E1 & E2 & HT).
  destruct (near_pore e He q q' me_nearby HV v) as (V & V' & E3 & E4 & HV').
  exists T, T', (V / gs_M), (V' / gs_M). split; [done|]. split; [done|]. rewrite E3, E4. change (@cutoff exact) with (@max_tof exact).
  destruct gs_consts as (_ & _ & -> & _). cbn [num ndiv exact]. unfold xdiv. assert (Qc_eqb gs_M 0 = false) as -> by done.
  split; [done|]. split; [done|]. split; [done|]. unfold Qcdiv.
  replace 1%nat with (1 + 0)%nat by done. apply rt_mul; [done..|]. apply rt_refl; [done|]. done.
Qed.
Lemma me_clear : clear_of_cutoff d (netted p).
Proof.
  intros v Hv Hc. rewrite netted_cost in Hc. cbn [netted pb_cells] in Hv. rewrite (me_cells _ _ _ HM) in Hv.
  apply (AW v Hv). destruct (me_fast v Hv) as (T & T' & V & V' & E1 & E2 & E3 & E4 & (HT0 & HT0' & HT1 & HT2) & (HV0 & HV0' & HV1 & HV2)).
  rewrite E2, E4 in Hc. destruct Hc as (a & b & [= <-] & [= <-] & H1 & H2). rewrite E1, E3. exists T, V. split; [done|]. split; [done|].
  rewrite E_1 in *. replace ((1 + e) ^ 2) with ((1 + e) * (1 + e)) by (cbn; ring).
  pose proof (E_ge (pow2 (-52)) ltac:(by apply Qclt_le_weak, U_pos) (cost d p v)) as HU. unfold E in HU.
  revert H1 H2 HU. generalize (U ^ cost d p v). intros G H1 H2 HU.
  assert (0 <= 1 + e) as H1e by (clear -He; qclra). assert (0 <= G) as HG by (transitivity 1; done).
  split.
  - transitivity (T' * (1 + e)); [done|]. transitivity (V' * G * (1 + e)); [by apply Qcmult_le_compat_r|].
    transitivity (V * (1 + e) * G * (1 + e)); [|apply qc_eq_le; ring]. apply Qcmult_le_compat_r; [|done]. by apply Qcmult_le_compat_r.
  - transitivity (V' * (1 + e)); [done|]. transitivity (T' * G * (1 + e)); [by apply Qcmult_le_compat_r|].
    transitivity (T * (1 + e) * G * (1 + e)); [|apply qc_eq_le; ring]. apply Qcmult_le_compat_r; [|done]. by apply Qcmult_le_compat_r.
Qed.
Lemma me_slow v : (0 ≤ v < pb_cells q)%Z → slow_cell d q v = slow_cell d q' v.
Proof.
  intros Hv. unfold slow_cell. destruct (me_fast v Hv) as (T & T' & V & V' & E1 & E2 & E3 & E4 & (HT0 & HT0' & HT1 & HT2) & (HV0 & HV0' & HV1 & HV2)).
  pose proof (AW v Hv) as Hn. rewrite E1, E3 in Hn. rewrite E1, E2, E3, E4. cbn [num nltb exact xltb]. rewrite E_1 in *.
  pose proof (E_ge (pow2 (-52)) ltac:(by apply Qclt_le_weak, U_pos) (cost d p v)) as HU. unfold E in HU.
  assert (0 <= 1 + e) as H1e by (clear -He; qclra). assert (1 <= (1 + e) * (1 + e)) as H2e by (clear -He; qcnra).
  assert (∀ a b, 0 <= b → a <= b * ((1 + e) * (1 + e)) → a <= b * ((1 + e) ^ 2 * U ^ cost d p v)) as Hup.
  { intros a b Hb Hab. replace ((1 + e) ^ 2) with ((1 + e) * (1 + e)) by (cbn; ring). transitivity (b * ((1 + e) * (1 + e))); [done|].
    apply qle_mul_l; [done|]. rewrite <-(Qcmult_1_r ((1 + e) * (1 + e))) at 1. apply qle_mul_l; [|done]. transitivity 1; done. }
  assert (∀ a b, 0 <= b → a <= b → a <= b * ((1 + e) * (1 + e))) as Hle.
  { intros a b Hb Hab. transitivity b; [done|]. rewrite <-(Qcmult_1_r b) at 1. by apply qle_mul_l. }
  destruct (Qc_ltb T V) eqn:L1, (Qc_ltb T' V') eqn:L2; [done| | |done]; exfalso; apply Hn; exists T, V; (split; [done|]); (split; [done|]).
  - apply Qc_ltb_true in L1. apply Qc_ltb_false in L2. split; apply Hup; [done| |done|].
    + apply Hle; [done|]. by apply Qclt_le_weak.
    + transitivity (V' * (1 + e)); [done|]. transitivity (T' * (1 + e)); [by apply Qcmult_le_compat_r|].
      transitivity (T * (1 + e) * (1 + e)); [by apply Qcmult_le_compat_r|]. rewrite Qcmult_assoc. apply Qcle_refl.
  - apply Qc_ltb_false in L1. apply Qc_ltb_true in L2. apply Qclt_le_weak in L2. split; apply Hup; [done| |done|].
    + transitivity (T' * (1 + e)); [done|]. transitivity (V' * (1 + e)); [by apply Qcmult_le_compat_r|].
      transitivity (V * (1 + e) * (1 + e)); [by apply Qcmult_le_compat_r|]. rewrite Qcmult_assoc. apply Qcle_refl.
    + by apply Hle.
Qed.
End cutoff.

Lemma me_flows d u v : moderate p → flows (flow d p) u v → flows (flow d q) u v.
Proof.
  intros MO H. apply (near_flows e He q q' me_nearby). apply (ex_flows (netted p) (netted_ordinary p MO)). by rewrite netted_flow.
Qed.
Lemma me_acyclic : moderate p → acyclic (net_arcs q) → acyclic (net_arcs p).
Proof.
  intros MO H v Hv. apply (H v). revert Hv. generalize v at 2 4. intros w.
  induction 1 as [u v' Hf|u w' v' Hf _ IH]; [apply tc_once|eapply tc_l; [|exact IH]]; by apply (me_flows Injection).
Qed.
End measured.

(** Start sets of runs that return results, and runs with enough memory. *)
Lemma solved_sets {N : Num} (p : problem) g f d ev sets sol : valid p → poses p g f → diagnose d ev g p f sets = Ok (OSol sol) → sets_ok d p sets.
Proof.
  intros Hp HP H. destruct (diagnose_eq p g f Hp HP d) as (s & HS & E). rewrite E in H. destruct (start_sets_ok _ _ sets) eqn:Es; [|done].
  exact (proj1 (start_sets_iff d (pb_rates p) sets (va_rates _ Hp)) Es).
Qed.
Lemma sets_exactly d (p : @problem b64) sets : sets_ok d p sets → sets_ok d (exactly p) sets.
Proof.
  intros H st Hst. destruct (H st Hst) as [(c & x & Hx) H2]. split.
  - exists c, (q_of x). rewrite ex_well_rate, Hx. done.
  - intros c' Hc'. destruct (H2 c' Hc') as (id & y & Hy). exists id, (q_of y). rewrite ex_well_rate, Hy. done.
Qed.
