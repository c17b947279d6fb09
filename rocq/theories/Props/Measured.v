(** Property C89: diagnostics computed with doubles from data known only
    approximately. Toolbox.cpp and TracerTofSolver.cpp. *)
From Coq Require Import ZArith Reals Lra Psatz QArith Qcanon Qreals String.
From Coq.Floats Require Import SpecFloat.
From Verif.Model Require Import Base Num OMap Containers Solution Toolbox.
From Verif.Spec Require Import ToolboxSpec AcyclicSpec SameFlowSpec MonotoneSpec AccuracySpec ConditionSpec MeasuredSpec.
From Verif.Proofs Require Import Util OMapFacts ExactNum QcLra OrdLaws B64Laws OppLaws TofLaws GaussSeidel ToolboxPose ToolboxThms SameFlow Acyclic Rounding Accuracy Condition Measured.
From Verif.Props Require Import Toolbox SameFlow Accuracy Monotone Condition.
Open Scope Z_scope.

Section theorem.
Context (q : @problem exact) (p : @problem b64) (e : Qc) (gq g : cgraph) (fq : @cvalues exact) (f : @cvalues b64) (d : direction) (D kc kt : Z → nat).
Context (He : (0 <= e)%Qc) (HM : measured e q p).
Context (Hq : valid q) (HPq : poses q gq fq) (HDq : data finite q) (HVq : pores_ok q).
Context (Hp : valid p) (HP : poses p g f) (HD : @data b64 b64_ok p) (Hsz : zlen (pb_conns p) < 2 ^ 64).
Context (Hac : acyclic (net_arcs q)) (HL : layers d q D) (MO : moderate p) (BU : budget d p kc kt) (AW : away_from_cutoff e d q p).
Context (evq ev : env) (setsq sets : list cellset) (solq : @solution exact) (sol : @solution b64).
Context (HRq : diagnose d evq gq q fq setsq = Ok (OSol solq)) (HR : diagnose d ev g p f sets = Ok (OSol sol)).
Notation p1 := (netted p).
Notation q1 := (exactly (netted p)).

(** The rounded sums of the phase fluxes, taken as the fluxes of a single phase,
    give the same results. *)
Lemma by_sums : ∃ g1 f1, poses p1 g1 f1 ∧ diagnose d ev g1 p1 f1 sets = Ok (OSol sol).
Proof.
  destruct (posable p1 1 (netted_valid p Hp)) as (g1 & f1 & _ & _ & HP1).
  - cbn [netted pb_conns]. apply Forall_map, Forall_forall. by intros.
  - cbn [netted pb_conns]. unfold zlen in *. rewrite map_length. lia.
  - exists g1, f1. split; [done|]. rewrite <-HR. symmetry.
    apply C53_net_flow; try done; [by apply netted_valid|]. apply same_arcs. by rewrite netted_arcs.
Qed.
(** Exact arithmetic solves the same problem. *)
Lemma by_exact : ∃ g1 f1 ev1 sol1, poses q1 g1 f1 ∧ diagnose d ev1 g1 q1 f1 sets = Ok (OSol sol1).
Proof.
  pose proof (Accuracy.ex_valid p1 (netted_valid p Hp)) as Hq1.
  destruct (posable q1 1 Hq1) as (g1 & f1 & _ & _ & HP1).
  - cbn [exactly netted pb_conns]. rewrite map_map. apply Forall_map, Forall_forall. by intros.
  - cbn [exactly netted pb_conns]. unfold zlen in *. rewrite !map_length. lia.
  - destruct (C23_total q1 g1 f1 d Hq1 HP1 (me_finite e q p HM) (near_pores e He q q1 (me_nearby e q p HM) HVq)) as (k & Hk).
    destruct (Hk (mkEnv (e_heap ex_ev) k) sets) as [H1 _]; [done|done|]. destruct H1 as [sol1 H1].
    + apply sets_exactly. exact (solved_sets p g f d ev sets sol Hp HP HR).
    + by exists g1, f1, (mkEnv (e_heap ex_ev) k), sol1.
Qed.

Lemma measured_well id : id ∈ map cs_id setsq → id ∈ map cs_id sets →
  (∀ v c, om_find v (sol_concentration solq id) = Some c → nleb (Fin (pow2 (-300) * (1 + e) ^ (2 * D v + 2))%Qc : @num exact) c = true) →
  ∀ v, option_Forall2 (λ x y, tracks e (2 * D v + 2) (kc v) x (q_of y)) (om_find v (sol_concentration solq id)) (om_find v (sol_concentration sol id)) ∧
       option_Forall2 (λ x y, tracks e (4 * D v + 6) (kt v) x (q_of y)) (om_find v (sol_tof solq id)) (om_find v (sol_tof sol id)).
Proof.
  intros Hidq Hid Hlow v. destruct by_sums as (g0 & f0 & HP0 & H0). destruct by_exact as (g1 & f1 & ev1 & sol1 & HP1 & H1).
  pose proof (netted_valid p Hp) as Hp1. pose proof (Accuracy.ex_valid p1 Hp1) as Hq1. pose proof (netted_ordinary p MO) as OR.
  pose proof (netted_data p HD) as HD1. pose proof (netted_budget d p kc kt BU) as BU1. pose proof (me_clear e He q p HM HVq d AW) as CL.
  assert (acyclic (net_arcs p1)) as Hac1. { rewrite netted_arcs. by apply (me_acyclic e He q p HM). }
  destruct (C86_condition q q1 e gq fq g1 f1 d evq ev1 setsq sets solq sol1 D He (me_nearby e q p HM) Hq HPq HDq HVq Hq1 HP1 (me_finite e q p HM) Hac HL
    (me_slow e He q p HM HVq d AW) HRq H1) as [HC _].
  assert (∀ v c, om_find v (sol_concentration sol1 id) = Some c → nleb (Fin (pow2 (-300)) : @num exact) c = true) as Hlow1.
  { intros w c Ec. destruct (HC id Hidq Hid w) as [Hw _]. rewrite Ec in Hw. destruct (om_find w (sol_concentration solq id)) as [c0|] eqn:Ec0; [|done].
    cbn [both] in Hw. specialize (Hlow w c0 Ec0). destruct Hw as (a & r & -> & -> & Hr1 & Hr2). apply xleb_Fin in Hlow. apply xleb_Fin.
    pose proof (E_ge e He (2 * D w + 2)) as HE. unfold E in HE. assert (0 <= pow2 (-300))%Qc as Hpw by done.
    revert Hlow Hr1 Hr2 HE Hpw. clear. generalize ((1 + e) ^ (2 * D w + 2))%Qc (pow2 (-300)). intros F P H1 H2 H3 H4 HP.
    assert (0 <= a)%Qc as Ha. { transitivity (P * F)%Qc; [|done]. apply qmul_nonneg; [done|]. transitivity 1%Qc; done. }
    destruct (Qclt_le_dec (a * r) P) as [Hlt|]; [|done]. exfalso. assert (a <= a * r * F)%Qc as H5.
    { rewrite <-Qcmult_assoc. rewrite <-(Qcmult_1_r a) at 1. by apply qle_mul_l. }
    revert H1 H5 Hlt H4. generalize (a * r)%Qc. clear. intros. qcnra. }
  destruct (C63_wells p1 g0 f0 g1 f1 d kc kt ev ev1 sets sets sol sol1 id Hp1 HP0 HP1 HD1 Hac1 OR BU1 CL H0 Hid H1 Hid Hlow1 v) as [G1 G2].
  pose proof (value_ranges q1 g1 f1 Hq1 HP1 exact_laws exact_opp_laws (ex_data p1) exact_tof_laws (ex_pores_ok p1 OR)
    d ev1 sets sol1 id (ex_no_overflow p1 Hp1 HD1 OR d _ _ BU1) H1) as [R1 R2].
  destruct (HC id Hidq Hid v) as [C1 C2]. split.
  - destruct (om_find v (sol_concentration sol id)) as [x|], (om_find v (sol_concentration sol1 id)) as [y|] eqn:Ey; inversion G1; subst;
      destruct (om_find v (sol_concentration solq id)); try done; constructor.
    eapply tracks_by; [done|exact C1| |eassumption]. apply (o_lt_le exact exact_laws); [exact I|exact I|apply (R1 v y Ey)].
  - destruct (om_find v (sol_tof sol id)) as [x|], (om_find v (sol_tof sol1 id)) as [y|] eqn:Ey; inversion G2; subst;
      destruct (om_find v (sol_tof solq id)); try done; constructor.
    eapply tracks_by; [done|exact C2| |eassumption]. apply (R2 v y Ey).
Qed.
Lemma measured_all : (∀ u v, flows (flow d q) u v → nltb n0 (total_in q d u) = true) → ∀ v, 0 ≤ v < pb_cells q →
  option_Forall2 (λ x y, tracks e (4 * D v + 6) (kt v) x (q_of y)) (sol_global_tof solq !! Z.to_nat v) (sol_global_tof sol !! Z.to_nat v).
Proof.
  intros Hfed v Hv. destruct by_sums as (g0 & f0 & HP0 & H0). destruct by_exact as (g1 & f1 & ev1 & sol1 & HP1 & H1).
  pose proof (netted_valid p Hp) as Hp1. pose proof (Accuracy.ex_valid p1 Hp1) as Hq1. pose proof (netted_ordinary p MO) as OR.
  pose proof (netted_data p HD) as HD1. pose proof (netted_budget d p kc kt BU) as BU1. pose proof (me_clear e He q p HM HVq d AW) as CL.
  assert (acyclic (net_arcs p1)) as Hac1. { rewrite netted_arcs. by apply (me_acyclic e He q p HM). }
  destruct (C86_condition q q1 e gq fq g1 f1 d evq ev1 setsq sets solq sol1 D He (me_nearby e q p HM) Hq HPq HDq HVq Hq1 HP1 (me_finite e q p HM) Hac HL
    (me_slow e He q p HM HVq d AW) HRq H1) as [_ HC].
  destruct (HC v Hv) as (t & t' & Et & Et' & Ht).
  assert (∀ u v, flows (flow d p1) u v → nltb n0 (total_in q1 d u) = true) as Hfed1.
  { intros u w Hf. rewrite netted_flow in Hf. apply (me_flows e He q p HM d u w MO), Hfed in Hf.
    pose proof (rtx_about e He _ _ _ (near_total e He q q1 (me_nearby e q p HM) d u)) as Ha. apply (about_lt e He) in Ha as [-> _]. exact Hf. }
  pose proof (C63_all_wells p1 g0 f0 g1 f1 d kc kt ev ev1 sets sets sol sol1 Hp1 HP0 HP1 HD1 Hac1 OR BU1 CL H0 H1 Hfed1 v) as G.
  cbn [netted pb_cells] in G. rewrite (me_cells _ _ _ HM) in G. specialize (G Hv). rewrite Et' in G. rewrite Et. destruct (sol_global_tof sol !! Z.to_nat v) as [x|]; inversion G; subst. constructor.
  eapply tracks_by; [done|exact Ht| |eassumption].
  pose proof (global_ranges q1 g1 f1 Hq1 HP1 exact_laws exact_opp_laws (ex_data p1) exact_tof_laws (ex_pores_ok p1 OR)
    d ev1 sets sol1 (ex_no_overflow p1 Hp1 HD1 OR d _ _ BU1) H1) as R2.
  apply (proj1 (Forall_forall _ _) R2 t' (elem_of_list_lookup_2 _ _ _ Et')).
Qed.
End theorem.

(** Results computed with doubles from such data follow those of exact arithmetic
    on the exact data: the errors of the data enter by at most 2 D + 2 and
    4 D + 6 factors, those of rounding by at most kc and kt. *)
Theorem C89_wells (q : @problem exact) (p : @problem b64) e gq g fq f d D kc kt evq ev setsq sets solq sol id :
  (0 <= e)%Qc → measured e q p →
  valid q → poses q gq fq → data finite q → pores_ok q →
  valid p → poses p g f → @data b64 b64_ok p → zlen (pb_conns p) < 2 ^ 64 →
  acyclic (net_arcs q) → layers d q D → moderate p → budget d p kc kt → away_from_cutoff e d q p →
  diagnose d evq gq q fq setsq = Ok (OSol solq) → id ∈ map cs_id setsq →
  diagnose d ev g p f sets = Ok (OSol sol) → id ∈ map cs_id sets →
  (∀ v c, om_find v (sol_concentration solq id) = Some c → nleb (Fin (pow2 (-300) * (1 + e) ^ (2 * D v + 2))%Qc : @num exact) c = true) →
  ∀ v, option_Forall2 (λ x y, tracks e (2 * D v + 2) (kc v) x (q_of y)) (om_find v (sol_concentration solq id)) (om_find v (sol_concentration sol id)) ∧
       option_Forall2 (λ x y, tracks e (4 * D v + 6) (kt v) x (q_of y)) (om_find v (sol_tof solq id)) (om_find v (sol_tof sol id)).
Proof. intros. by eapply (measured_well q p e gq g fq f d D kc kt). Qed.
(** The same for all wells together, if nothing flows out of cells into which
    nothing flows. *)
Theorem C89_all_wells (q : @problem exact) (p : @problem b64) e gq g fq f d D kc kt evq ev setsq sets solq sol :
  (0 <= e)%Qc → measured e q p →
  valid q → poses q gq fq → data finite q → pores_ok q →
  valid p → poses p g f → @data b64 b64_ok p → zlen (pb_conns p) < 2 ^ 64 →
  acyclic (net_arcs q) → layers d q D → moderate p → budget d p kc kt → away_from_cutoff e d q p →
  diagnose d evq gq q fq setsq = Ok (OSol solq) → diagnose d ev g p f sets = Ok (OSol sol) →
  (∀ u v, flows (flow d q) u v → nltb n0 (total_in q d u) = true) → ∀ v, 0 ≤ v < pb_cells q →
    option_Forall2 (λ x y, tracks e (4 * D v + 6) (kt v) x (q_of y)) (sol_global_tof solq !! Z.to_nat v) (sol_global_tof sol !! Z.to_nat v).
Proof. intros. by eapply (measured_all q p e gq g fq f d D kc kt). Qed.

(** Data put down with relative errors of at most 2^-52, as when every number is
    replaced by the nearest double and the phases are added up: the relative errors
    of the results are bounded by the numbers of cells, connections and wells. *)
Lemma tracks_close K k x y : tracks (pow2 (-52)) K k x y → close (K + k) y x.
Proof.
  intros (a & b & -> & -> & H1 & H2). pose proof (E_add (pow2 (-52)) K k) as HE. unfold E in HE.
  exists b, a. split; [done|]. split; [done|]. unfold within. rewrite HE. split; [exact H2|exact H1].
Qed.
Lemma small_power k : Z.of_nat k ≤ 2 ^ 50 → ((1 + pow2 (-52)) ^ k <= 1 + 1)%Qc.
Proof.
  intros Hk. pose proof (E_lin (pow2 (-52)) ltac:(done) k) as H. unfold E in H.
  assert (qn k <= Q2Qc (inject_Z (2 ^ 50)))%Qc as Hq. { unfold qn. unfold Qcle. cbn [this Q2Qc]. rewrite !Qred_correct. by rewrite <-Zle_Qle. }
  assert (qn k * pow2 (-52) <= Q2Qc (1 # 4))%Qc as Hs.
  { transitivity (Q2Qc (inject_Z (2 ^ 50)) * pow2 (-52))%Qc; [apply Qcmult_le_compat_r; [exact Hq|done]|]. vm_compute. discriminate. }
  assert (0 <= (1 + pow2 (-52)) ^ k)%Qc as H0. { pose proof (E_ge (pow2 (-52)) ltac:(done) k) as HE. unfold E in HE. transitivity 1%Qc; done. }
  assert (Q2Qc (1 # 4) <= 1 - Q2Qc (1 # 2))%Qc as Hf by done.
  assert ((1 + pow2 (-52)) ^ k * Q2Qc (1 # 2) <= 1)%Qc as H1.
  { eapply Qcle_trans; [|exact H]. apply qle_mul_l; [done|]. revert Hs Hf. generalize (qn k * pow2 (-52))%Qc (Q2Qc (1 # 4)) (Q2Qc (1 # 2)). clear. intros. qclra. }
  assert (Q2Qc (1 # 2) * (1 + 1) = 1)%Qc as E2 by (apply Qc_is_canon; reflexivity). revert H1 E2. generalize ((1 + pow2 (-52)) ^ k)%Qc (Q2Qc (1 # 2)). clear. intros. qcnra.
Qed.
Section by_size.
Context (q : @problem exact) (p : @problem b64) (gq g : cgraph) (fq : @cvalues exact) (f : @cvalues b64) (d : direction) (evq ev : env) (setsq sets : list cellset) (solq : @solution exact) (sol : @solution b64).
Notation n := (Z.to_nat (pb_cells q)).
Notation C := (all_costs p).
Notation e := (pow2 (-52)).
Context (HM : measured e q p).
Context (Hq : valid q) (HPq : poses q gq fq) (HDq : data finite q) (HVq : pores_ok q).
Context (Hp : valid p) (HP : poses p g f) (HD : @data b64 b64_ok p) (Hsz : zlen (pb_conns p) < 2 ^ 64).
Context (Hac : acyclic (net_arcs q)) (MO : moderate p) (AW : away_from_cutoff e d q p).
Context (Hs : Z.of_nat (4 * n + 2 + n * (C * (2 * n + 1))) ≤ 2 ^ 50).
Context (HRq : diagnose d evq gq q fq setsq = Ok (OSol solq)) (HR : diagnose d ev g p f sets = Ok (OSol sol)).

Lemma sized_bounds : ∃ D kc kt, layers d q D ∧ budget d p kc kt ∧ ∀ v, (D v < n)%nat ∧ (kc v ≤ n * C)%nat ∧ (kt v ≤ n * (C * (2 * n + 1)))%nat.
Proof.
  destruct (layers_exist q d gq fq evq setsq solq Hq HPq Hac HRq) as (D & HL & HDn).
  destruct (rank_exists p Hp d g f ev sets sol HP (me_acyclic e ltac:(done) q p HM MO Hac) HR) as (rank & Hr & Hn).
  rewrite (me_cells _ _ _ HM) in Hn.
  pose proof (rank_budget p d rank n Hr Hn ltac:(lia)) as BU.
  exists D, (λ v, (rank v + 1) * C)%nat, (λ v, (rank v + 1) * (C * (2 * n + 1)))%nat. split; [done|]. split; [done|].
  intros v. specialize (HDn v). specialize (Hn v). split_and!; [done| |]; apply Nat.mul_le_mono_r; lia.
Qed.
Lemma sized_off x y K k K' : nleb n0 x = true → tracks e K k x (q_of y) → (K + k ≤ K')%nat → Z.of_nat K' ≤ 2 ^ 50 → AccuracySpec.off_by (errors K') (q_of y) x.
Proof. intros Hx Ht Hk HK. apply close_relative; [done|done|]. eapply close_mono; [|done|apply tracks_close, Ht]. lia. Qed.
Lemma q_no_overflow : no_overflow d q.
Proof. intros v _. destruct (near_total e ltac:(done) q (exactly (netted p)) (me_nearby e q p HM) d v) as (a & b & -> & _). done. Qed.

Lemma measured_size id : id ∈ map cs_id setsq → id ∈ map cs_id sets →
  (∀ v c, om_find v (sol_concentration solq id) = Some c → nleb (Fin (pow2 (-299)) : @num exact) c = true) →
  ∀ v, option_Forall2 (λ x y, AccuracySpec.off_by (errors (2 * n + n * C)) (q_of y) x) (om_find v (sol_concentration solq id)) (om_find v (sol_concentration sol id)) ∧
       option_Forall2 (λ x y, AccuracySpec.off_by (errors (4 * n + 2 + n * (C * (2 * n + 1)))) (q_of y) x) (om_find v (sol_tof solq id)) (om_find v (sol_tof sol id)).
Proof.
  intros Hidq Hid Hlow v. destruct sized_bounds as (D & kc & kt & HL & BU & HB).
  destruct (C89_wells q p e gq g fq f d D kc kt evq ev setsq sets solq sol id ltac:(done) HM Hq HPq HDq HVq Hp HP HD Hsz Hac HL MO BU AW HRq Hidq HR Hid) with (v := v) as [H1 H2].
  { intros w c Hc. specialize (Hlow w c Hc). destruct c as [c| | |]; try done. apply xleb_Fin in Hlow. apply xleb_Fin. etrans; [|exact Hlow].
    destruct (HB w) as (HB1 & _). assert ((1 + e) ^ (2 * D w + 2) <= 1 + 1)%Qc as Hw by (apply small_power; lia).
    transitivity (pow2 (-300) * (1 + 1))%Qc; [apply qle_mul_l; [done|exact Hw]|]. vm_compute. discriminate. }
  pose proof (value_ranges q gq fq Hq HPq exact_laws exact_opp_laws ltac:(by split) exact_tof_laws HVq d evq setsq solq id q_no_overflow HRq) as [R1 R2].
  destruct (HB v) as (HB1 & HB2 & HB3). assert (n * C ≤ n * (C * (2 * n + 1)))%nat as Hk3 by nia. split.
  - destruct (om_find v (sol_concentration solq id)) as [x|] eqn:Ex, (om_find v (sol_concentration sol id)) as [y|]; inversion H1; subst; constructor.
    eapply sized_off; [|eassumption|lia|lia]. apply (o_lt_le exact exact_laws); [exact I|exact I|apply (R1 v x Ex)].
  - destruct (om_find v (sol_tof solq id)) as [x|] eqn:Ex, (om_find v (sol_tof sol id)) as [y|]; inversion H2; subst; constructor.
    eapply sized_off; [|eassumption|lia|lia]. apply (R2 v x Ex).
Qed.
End by_size.
Theorem C89_by_size (q : @problem exact) (p : @problem b64) gq g fq f d evq ev setsq sets solq sol id :
  let n := Z.to_nat (pb_cells q) in let C := all_costs p in measured (pow2 (-52)) q p →
  valid q → poses q gq fq → data finite q → pores_ok q →
  valid p → poses p g f → @data b64 b64_ok p → zlen (pb_conns p) < 2 ^ 64 →
  acyclic (net_arcs q) → moderate p → away_from_cutoff (pow2 (-52)) d q p → Z.of_nat (4 * n + 2 + n * (C * (2 * n + 1))) ≤ 2 ^ 50 →
  diagnose d evq gq q fq setsq = Ok (OSol solq) → id ∈ map cs_id setsq →
  diagnose d ev g p f sets = Ok (OSol sol) → id ∈ map cs_id sets →
  (∀ v c, om_find v (sol_concentration solq id) = Some c → nleb (Fin (pow2 (-299)) : @num exact) c = true) →
  ∀ v, option_Forall2 (λ x y, AccuracySpec.off_by (errors (2 * n + n * C)) (q_of y) x) (om_find v (sol_concentration solq id)) (om_find v (sol_concentration sol id)) ∧
       option_Forall2 (λ x y, AccuracySpec.off_by (errors (4 * n + 2 + n * (C * (2 * n + 1)))) (q_of y) x) (om_find v (sol_tof solq id)) (om_find v (sol_tof sol id)).
Proof. intros n C **. by eapply (measured_size q p gq g fq f d). Qed.

(** ** Example *)
(** Tenths, which are no doubles. The phase fluxes 1/10 and 1/5 add up to 3/10, but
    their doubles to a double that is not the one nearest to 3/10. *)
Definition dec_p {N : Num} : problem := mkProblem 3
  [(0, 1, [frac 1 10; frac 1 5]); (1, 2, [frac 1 5; frac 1 5])] [frac 7 10; frac 1 10; frac 1 5]
  [("I1"%string, [(0, frac 3 10)]); ("I2"%string, [(1, frac 1 10)]); ("P"%string, [(2, frac (-4) 10)])].
Lemma dec_valid {N : Num} : valid dec_p. Proof. valid_tac. Qed.
Lemma dec_poses {N : Num} : poses dec_p (graph_for dec_p) (values_for dec_p 2).
Proof. apply posed; [apply dec_valid|forall_tac|reflexivity]. Qed.
Lemma dec_data {N : Num} (W : num → Prop) : Forall W [frac 1 10; frac 1 5; frac 7 10; frac 3 10; frac (-4) 10] → data W dec_p.
Proof.
  intros H. repeat match goal with H : Forall _ (_ :: _) |- _ => apply Forall_cons in H as [? H] end.
  split; intros; cbv [dec_p pb_conns pb_rates pb_pv] in *;
    repeat match goal with
    | H : _ ∈ [] |- _ => by apply elem_of_nil in H
    | H : _ ∈ _ :: _ |- _ => apply elem_of_cons in H as [->|H]
    | H : _ ∈ _ |- _ => progress cbv [fst snd] in H
    end; assumption.
Qed.
Lemma dec_finite : data finite (@dec_p exact).
Proof. apply dec_data. repeat (apply Forall_cons; split; [eexists; vm_compute; reflexivity|]). apply Forall_nil_2. Qed.
Lemma dec_ok : @data b64 b64_ok (@dec_p b64).
Proof. apply dec_data. repeat (apply Forall_cons; split; [vm_compute; reflexivity|]). apply Forall_nil_2. Qed.
Lemma dec_measured : measured (pow2 (-52)) (@dec_p exact) (@dec_p b64).
Proof.
  split; [reflexivity| | |].
  - cbv [pb_conns dec_p]. list_tac ltac:(split; [reflexivity|unfold stands; about_tac]).
  - cbv [pb_pv dec_p]. list_tac ltac:(unfold stands; about_tac).
  - cbv [pb_rates dec_p]. list_tac ltac:(split; [reflexivity|cbv [snd]; list_tac ltac:(split; [reflexivity|unfold stands; about_tac])]).
Qed.
(** Rounded when the phases are added up. *)
Example dec_rounds : neqb (nadd (frac 1 10) (frac 1 5)) (@frac b64 3 10) = false. Proof. vm_compute. reflexivity. Qed.
Lemma dec_moderate : moderate (@dec_p b64).
Proof.
  assert (∀ {A} (P : A → bool) l, forallb P l = true → ∀ x, x ∈ l → P x = true) as FB.
  { intros A P l H x Hx. rewrite forallb_forall in H. apply H. by apply elem_of_list_In. }
  split.
  - intros a Ha. apply sizedb_sized. revert a Ha. apply (FB _ (λ a : @arc b64, sizedb (-100) 100 (q_of a.2))). vm_compute. reflexivity.
  - intros d id c x. unfold well_rate. destruct (om_find id (pb_rates dec_p)) as [vals|] eqn:E; [|done].
    apply om_find_elem in E; [|repeat constructor]. destruct (om_find c vals) as [y|] eqn:E'; [|done].
    assert (om_wf vals) as W.
    { revert E. cbn [pb_rates dec_p]. intros E.
      repeat (apply elem_of_cons in E as [E|E]; [injection E as -> ->; repeat constructor|]). by apply elem_of_nil in E. }
    apply om_find_elem in E'; [|done]. intros Hx. apply sizedb_sized.
    assert (forallb (λ e : cellset_id * @cellset_values b64, forallb (λ k : Z * @num b64,
      forallb (λ d, match @rate_part b64 d k.2 with Some x => sizedb (-100) 100 (q_of x) | None => true end) [Injection; Production]) e.2) (pb_rates dec_p) = true) as H by (vm_compute; reflexivity).
    pose proof (FB _ _ _ (FB _ _ _ (FB _ _ _ H _ E) _ E') d) as H'. cbv beta in H'. cbn [snd] in H'. rewrite Hx in H'. apply H'. destruct d; set_solver.
  - intros x Hx. apply sizedb_sized. revert x Hx. apply (FB _ (λ x : @num b64, sizedb (-100) 100 (q_of x))). vm_compute. reflexivity.
Qed.
Definition tracksb (e : Qc) (K k : nat) (x y : @num exact) : bool :=
  match x, y with Fin a, Fin b => Qle_bool a (b * ((1 + e) ^ K * (1 + pow2 (-52)) ^ k))%Qc && Qle_bool b (a * ((1 + e) ^ K * (1 + pow2 (-52)) ^ k))%Qc | _, _ => false end.
Lemma tracks_tracksb e K k x y : tracks e K k x y → tracksb e K k x y = true.
Proof. intros (a & b & -> & -> & H1 & H2). cbn. apply andb_true_intro. split; by apply Qle_bool_iff. Qed.
Lemma dec_away d : away_from_cutoff (pow2 (-52)) d (@dec_p exact) (@dec_p b64).
Proof.
  intros v Hv Hc. apply tracks_tracksb in Hc. cbn in Hv.
  assert (v = 0 ∨ v = 1 ∨ v = 2) as [->|[->| ->]] by lia; destruct d; revert Hc; vm_compute; discriminate.
Qed.
Lemma dec_acyclic : acyclic (net_arcs (@dec_p exact)).
Proof. apply (acyclic_rank (λ z, z)). assert (map fst (net_arcs (@dec_p exact)) = [(0, 1); (1, 2)]) as -> by (vm_compute; reflexivity). forall_tac. Qed.
Definition dec_sets : list cellset := [cs_new "I1"%string; cs_new "I2"%string].
Definition dec_run {N : Num} := diagnose Injection ex_ev (graph_for dec_p) dec_p (values_for dec_p 2) dec_sets.
Definition above (m : @cellset_values exact) : bool := forallb (λ e : Z * @num exact, nleb (Fin (pow2 (-299)) : @num exact) e.2) m.
Lemma above_find m v c : above m = true → om_find v m = Some c → nleb (Fin (pow2 (-299)) : @num exact) c = true.
Proof.
  unfold above. induction m as [|[w x] m IH]; [done|]. intros H. cbn [forallb] in H. apply andb_prop in H as [H1 H2].
  cbn [om_find]. destruct (kcmp v w); [by intros [= <-]|done|]. by apply IH.
Qed.
(** The concentration of I1 in cell 2 is 3/4 and its time-of-flight 37/12; the one
    computed with doubles is another number. *)
Example C89_runs : solves (@dec_run exact) (λ solq, solves (@dec_run b64) (λ sol,
  above (sol_concentration solq "I1"%string) && above (sol_concentration solq "I2"%string) &&
  holds (sol_concentration solq "I1"%string) [(0, n1); (1, frac 3 4); (2, frac 3 4)] &&
  match om_find 2 (sol_tof solq "I1"%string), om_find 2 (sol_tof sol "I1"%string) with
  | Some x, Some y => neqb x (frac 37 12) && negb (neqb (q_of y) x) | _, _ => false end)) = true.
Proof. vm_compute. reflexivity. Qed.
(** Concentrations are off by at most 66 and times-of-flight by at most 434 parts
    in 2^51. *)
Example C89_ex solq sol id : @dec_run exact = Ok (OSol solq) → @dec_run b64 = Ok (OSol sol) → id ∈ ["I1"%string; "I2"%string] → ∀ v,
  option_Forall2 (λ x y, AccuracySpec.off_by (errors 66) (q_of y) x) (om_find v (sol_concentration solq id)) (om_find v (sol_concentration sol id)) ∧
  option_Forall2 (λ x y, AccuracySpec.off_by (errors 434) (q_of y) x) (om_find v (sol_tof solq id)) (om_find v (sol_tof sol id)).
Proof.
  intros H H' Hid. pose proof C89_runs as HR. rewrite H in HR. cbn [solves] in HR. rewrite H' in HR. cbn [solves] in HR.
  apply andb_prop in HR as [HR _]. apply andb_prop in HR as [HR _]. apply andb_prop in HR as [L1 L2].
  apply (C89_by_size (@dec_p exact) (@dec_p b64) _ _ _ _ Injection _ _ _ _ solq sol id dec_measured dec_valid dec_poses dec_finite ltac:(apply pores_by; vm_compute; reflexivity)
    dec_valid dec_poses dec_ok ltac:(reflexivity) dec_acyclic dec_moderate (dec_away _) ltac:(vm_compute; discriminate) H Hid H' Hid).
  intros v c E. apply elem_of_cons in Hid as [->|Hid]; [by eapply above_find; [exact L1|]|].
  apply elem_of_list_singleton in Hid as ->. by eapply above_find; [exact L2|].
Qed.
(** All wells together. *)
Definition dec_D (v : Z) : nat := Z.to_nat (v mod 3).
Lemma dec_flows {N : Num} : map fst (flow Injection dec_p) = [(0, 1); (1, 2)] → ∀ u v, flows (flow Injection dec_p) u v → (u = 0 ∧ v = 1) ∨ (u = 1 ∧ v = 2).
Proof.
  intros E u v. unfold flows. rewrite E. intros H. apply elem_of_cons in H as [H|H]; [injection H as -> ->; auto|].
  apply elem_of_list_singleton in H. injection H as -> ->. auto.
Qed.
Example C89_ex_all solq sol : @dec_run exact = Ok (OSol solq) → @dec_run b64 = Ok (OSol sol) → ∀ v, 0 ≤ v < 3 →
  option_Forall2 (λ x y, tracks (pow2 (-52)) (4 * dec_D v + 6) ((dec_D v + 1) * 140) x (q_of y)) (sol_global_tof solq !! Z.to_nat v) (sol_global_tof sol !! Z.to_nat v).
Proof.
  intros H H'. pose proof (dec_flows (N := exact) ltac:(vm_compute; reflexivity)) as F. pose proof (dec_flows (N := b64) ltac:(vm_compute; reflexivity)) as F'.
  apply (C89_all_wells (@dec_p exact) (@dec_p b64) (pow2 (-52)) _ _ _ _ Injection dec_D (λ v, (dec_D v + 1) * 20)%nat (λ v, (dec_D v + 1) * 140)%nat ex_ev ex_ev dec_sets dec_sets solq sol ltac:(done) dec_measured
    dec_valid dec_poses dec_finite ltac:(apply pores_by; vm_compute; reflexivity) dec_valid dec_poses dec_ok ltac:(reflexivity) dec_acyclic); [|exact dec_moderate| |exact (dec_away _)|exact H|exact H'|].
  - intros u v Hf. destruct (F u v Hf) as [[-> ->]|[-> ->]]; vm_compute; lia.
  - change (budget Injection (@dec_p b64) (λ v, (dec_D v + 1) * all_costs (@dec_p b64))%nat (λ v, (dec_D v + 1) * (all_costs (@dec_p b64) * (2 * 3 + 1)))%nat).
    apply rank_budget; [| |vm_compute; discriminate].
    + intros u v Hf. destruct (F' u v Hf) as [[-> ->]|[-> ->]]; vm_compute; lia.
    + intros v. unfold dec_D. pose proof (Z.mod_pos_bound v 3). lia.
  - intros u v Hf. destruct (F u v Hf) as [[-> ->]|[-> ->]]; vm_compute; reflexivity.
Qed.
Print Assumptions C89_wells.
Print Assumptions C89_all_wells.
Print Assumptions C89_by_size.
