(** From fluxes to the Lorenz coefficient: small relative errors of the times-of-flight
    change it little, so it is near that of exact arithmetic. *)
From Coq Require Import ZArith Reals Lra Psatz QArith Qcanon Qreals.
From Coq.QArith Require Qcabs.
From Coq.Floats Require Import SpecFloat.
From Flocq Require Import Core.
From Verif.Model Require Import Base Num OMap Containers Solution Toolbox DerivedQuantities.
From Verif.Spec Require Import DerivedSpec GiniSpec AccuracySpec CurveSpec AcyclicSpec.
From Verif.Proofs Require Import Util ExactNum QcLra OrdLaws B64Laws OppLaws TofLaws SolverBase ToolboxVal ToolboxThms Acyclic DerivedExact DerivedLink DerivedTop DerivedMisc Gini Rounding Accuracy CurveAccuracy.
Open Scope Z_scope.

(** * The coefficient depends continuously on the times *)
Section stable.
Context (itof ptof itof' ptof' pv : list Qc) (f e : Qc).
Hypothesis (FI : fphi_input itof ptof pv f) (FI' : fphi_input itof' ptof' pv f).
Hypothesis Hc : ∀ i a b a' b', itof !! i = Some a → ptof !! i = Some b → itof' !! i = Some a' → ptof' !! i = Some b' →
  (a' + b' <= (1 + e) * (a + b) ∧ a + b <= (1 + e) * (a' + b'))%Qc.
Notation Y := (Qc * Qc * (Qc * Qc) * Qc)%type.
Notation l := (filter (λ x : Y, kept pv f x.2) (zip (zip (zip itof ptof) (zip itof' ptof')) pv)).
Lemma filter_zip {A B C} (P : C → Prop) `{!∀ x, Decision (P x)} (la : list A) (lb : list B) (lc : list C) : length la = length lb →
  filter (λ x : A * C, P x.2) (zip la lc) = (λ x : A * B * C, (x.1.1, x.2)) <$> filter (λ x : A * B * C, P x.2) (zip (zip la lb) lc).
Proof.
  revert lb lc. induction la as [|a la IH]; intros [|b lb] [|c lc] Hl; try done. cbn [zip zip_with]. rewrite !filter_cons. cbn [snd].
  injection Hl as Hl. destruct (decide (P c)); [rewrite fmap_cons; f_equal|]; by apply IH.
Qed.
Lemma filter_zip_r {A B C} (P : C → Prop) `{!∀ x, Decision (P x)} (la : list A) (lb : list B) (lc : list C) : length la = length lb →
  filter (λ x : B * C, P x.2) (zip lb lc) = (λ x : A * B * C, (x.1.2, x.2)) <$> filter (λ x : A * B * C, P x.2) (zip (zip la lb) lc).
Proof.
  revert lb lc. induction la as [|a la IH]; intros [|b lb] [|c lc] Hl; try done. cbn [zip zip_with]. rewrite !filter_cons. cbn [snd].
  injection Hl as Hl. destruct (decide (P c)); [rewrite fmap_cons; f_equal|]; by apply IH.
Qed.
Lemma zips : length (zip itof ptof) = length (zip itof' ptof').
Proof.
  destruct FI as [E1 E2 _ _ _ _], FI' as [E1' E2' _ _ _ _]. rewrite !zip_with_length. lia.
Qed.
Lemma counted_1 : counted itof ptof pv f = (λ x : Y, ((x.1.1.1 + x.1.1.2)%Qc, x.2)) <$> l.
Proof. unfold counted, survivors. rewrite (filter_zip (kept pv f) _ (zip itof' ptof') pv zips), <-list_fmap_compose. done. Qed.
Lemma counted_2 : counted itof' ptof' pv f = (λ x : Y, ((x.1.2.1 + x.1.2.2)%Qc, x.2)) <$> l.
Proof. unfold counted, survivors. rewrite (filter_zip_r (kept pv f) (zip itof ptof) (zip itof' ptof') pv zips), <-list_fmap_compose. done. Qed.
Lemma l_data x : x ∈ l → (0 <= x.2)%Qc ∧ (0 < x.1.1.1 + x.1.1.2)%Qc ∧ (0 < x.1.2.1 + x.1.2.2)%Qc ∧
  (x.1.2.1 + x.1.2.2 <= (1 + e) * (x.1.1.1 + x.1.1.2) ∧ x.1.1.1 + x.1.1.2 <= (1 + e) * (x.1.2.1 + x.1.2.2))%Qc.
Proof.
  intros [HK Hx]%elem_of_list_filter. apply elem_of_list_lookup in Hx as [i Hi]. destruct x as [[[a b] [a' b']] v].
  apply lookup_zip_with_Some in Hi as (y & v' & [= <- <-] & H & Hv). apply lookup_zip_with_Some in H as (y1 & y2 & [= <- <-] & H1 & H2).
  apply lookup_zip_with_Some in H1 as (? & ? & [= <- <-] & Ha & Hb). apply lookup_zip_with_Some in H2 as (? & ? & [= <- <-] & Ha' & Hb'). cbn [fst snd] in *.
  pose proof (fi_pv _ _ _ _ FI) as Hp. rewrite Forall_lookup in Hp.
  split; [by eapply Hp|]. split; [by eapply (fi_time _ _ _ _ FI)|]. split; [by eapply (fi_time _ _ _ _ FI')|]. by eapply Hc.
Qed.
Lemma l_rates x : x ∈ l → (/ (x.1.2.1 + x.1.2.2) <= / (x.1.1.1 + x.1.1.2) + e * / (x.1.1.1 + x.1.1.2))%Qc ∧
  (/ (x.1.1.1 + x.1.1.2) - e * / (x.1.1.1 + x.1.1.2) <= / (x.1.2.1 + x.1.2.2))%Qc.
Proof.
  intros Hx. destruct (l_data x Hx) as (_ & P1 & P2 & H1 & H2). set (t := (x.1.1.1 + x.1.1.2)%Qc) in *. set (t' := (x.1.2.1 + x.1.2.2)%Qc) in *. clearbody t t'.
  assert (t ≠ 0 ∧ t' ≠ 0)%Qc as [N1 N2]. { split; intros ->; [by apply Qclt_not_eq in P1|by apply Qclt_not_eq in P2]. }
  assert (/ t * t = 1 ∧ / t' * t' = 1)%Qc as [I1 I2] by (split; by apply Qcmult_inv_l).
  assert (0 < / t ∧ 0 < / t')%Qc as [J1 J2].
  { split; apply QR_lt; rewrite QR_0, QR_inv by done; apply Rinv_0_lt_compat; [apply QR_lt in P1|apply QR_lt in P2]; by rewrite QR_0 in *. }
  set (w := (/ t)%Qc) in *. set (w' := (/ t')%Qc) in *. clearbody w w'. clear -P1 P2 H1 H2 I1 I2 J1 J2. split.
  - assert (w' * (t * w) <= w' * ((1 + e) * t') * w)%Qc as H.
    { rewrite Qcmult_assoc. apply Qcmult_le_compat_r; [|by apply Qclt_le_weak]. rewrite !(Qcmult_comm w'). apply Qcmult_le_compat_r; [done|by apply Qclt_le_weak]. }
    replace (w' * (t * w))%Qc with w' in H by (rewrite (Qcmult_comm t), I1; ring). replace (w' * ((1 + e) * t') * w)%Qc with ((1 + e) * w * (w' * t'))%Qc in H by ring.
    rewrite I2 in H. replace (w + e * w)%Qc with ((1 + e) * w * 1)%Qc by ring. exact H.
  - assert (w * (t' * w') <= w * ((1 + e) * t) * w')%Qc as H.
    { rewrite Qcmult_assoc. apply Qcmult_le_compat_r; [|by apply Qclt_le_weak]. rewrite !(Qcmult_comm w). apply Qcmult_le_compat_r; [done|by apply Qclt_le_weak]. }
    replace (w * (t' * w'))%Qc with w in H by (rewrite (Qcmult_comm t'), I2; ring). replace (w * ((1 + e) * t) * w')%Qc with ((1 + e) * w' * (w * t))%Qc in H by ring.
    rewrite I1 in H.
    destruct (Qclt_le_dec e 1) as [L|L].
    + assert ((1 - e) * w <= (1 - e) * ((1 + e) * w'))%Qc as H'. { rewrite !(Qcmult_comm (1 - e)). apply Qcmult_le_compat_r; [|clear -L; qclra]. replace ((1 + e) * w')%Qc with ((1 + e) * w' * 1)%Qc by ring. done. }
      replace (w - e * w)%Qc with ((1 - e) * w)%Qc by ring. eapply Qcle_trans; [exact H'|]. replace ((1 - e) * ((1 + e) * w'))%Qc with (w' - e * e * w')%Qc by ring.
      assert (0 <= e * e * w')%Qc as Hq. { assert (0 <= e * e)%Qc by (clear; qcnra). clear -H0 J2. set (m := (e * e)%Qc) in *. clearbody m. qcnra. }
      set (m := (e * e * w')%Qc) in *. clearbody m. clear -Hq. qclra.
    + apply (Qcle_trans _ 0); [|by apply Qclt_le_weak]. clear -J1 L. assert (w <= e * w)%Qc. { rewrite <-(Qcmult_1_l w) at 1. apply Qcmult_le_compat_r; [done|by apply Qclt_le_weak]. } set (m := (e * w)%Qc) in *. clearbody m. qclra.
Qed.
Lemma counted_stable srt srt' g g' x y : sorting (N:=exact) srt → sorting (N:=exact) srt' →
  @fphi_curve exact srt (fins itof) (fins ptof) (fins pv) (Fin f) = Ok g → @fphi_curve exact srt' (fins itof') (fins ptof') (fins pv) (Fin f) = Ok g' →
  lorenz_coefficient g = Ok (Fin x) → lorenz_coefficient g' = Ok (Fin y) → (x <= y + 2 * e ∧ y <= x + 2 * e)%Qc.
Proof.
  intros Hs Hs' E E' X1 Y1. pose proof (curve_spread srt _ _ _ _ _ Hs FI E) as S1. pose proof (curve_spread srt' _ _ _ _ _ Hs' FI' E') as S2. cbv zeta in S1, S2.
  rewrite X1 in S1. rewrite Y1 in S2. apply ok_fin_inj in S1, S2.
  destruct (curve_exact_lorenz srt' itof' ptof' pv f g' Hs' FI' E') as (y' & Y2 & Y3 & Y4 & _). rewrite Y1 in Y2. apply ok_fin_inj in Y2 as <-.
  destruct (DerivedLink.curve_exact srt _ _ _ _ Hs FI) as (m & M1 & M2 & _).
  destruct (DerivedLink.curve_exact srt' _ _ _ _ Hs' FI') as (m' & M1' & M2' & _).
  pose proof (vols_pos m M2) as V1. rewrite (counted_volume _ _ _ _ _ M1) in V1.
  pose proof (DerivedExact.rates_pos m M2) as R1. rewrite (counted_flux _ _ _ _ _ M1) in R1.
  pose proof (DerivedExact.rates_pos m' M2') as R2. rewrite (counted_flux _ _ _ _ _ M1') in R2.
  rewrite S2 in Y3, Y4. rewrite counted_1 in S1, V1, R1. rewrite counted_2 in S2, R2, Y3, Y4.
  destruct (coefficient_shift l (λ x : Y, (x.1.1.1 + x.1.1.2)%Qc) (λ x : Y, (x.1.2.1 + x.1.2.2)%Qc) (λ x : Y, x.2) e) as [A1 A2].
  { intros x0 Hx0. by apply l_data. }
  { intros x0 Hx0. by apply l_rates. }
  { exact V1. } { exact R1. } { exact R2. } { split; [exact Y3|by apply Qclt_le_weak]. }
  rewrite S1, S2. split; [exact A2|exact A1].
Qed.
End stable.

(** * Times-of-flight of all wells together *)
Section times.
Context (p : @problem b64) (g : cgraph) (f : @cvalues b64) (g' : cgraph) (f' : @cvalues exact).
Context (Hp : valid p) (HP : poses p g f) (HP' : poses (exactly p) g' f') (HD : @data b64 b64_ok p) (Hac : acyclic (net_arcs p)).
Context (OR : ordinary p) (d : direction) (CL : clear_of_cutoff d p).
Notation n := (Z.to_nat (pb_cells p)).
Notation K := (n * (all_costs p * (2 * n + 1)))%nat.
Lemma global_app ev ev' sets sets' sol sol' : Z.of_nat K ≤ 2 ^ 50 →
  diagnose d ev g p f sets = Ok (OSol sol) → diagnose d ev' g' (exactly p) f' sets' = Ok (OSol sol') →
  (∀ u v, flows (flow d p) u v → nltb n0 (total_in (exactly p) d u) = true) →
  length (sol_global_tof sol) = n ∧ Forall2 (app K (-310) 90) (sol_global_tof sol) (sol_global_tof sol').
Proof.
  intros Hs H H' HF. destruct (rank_exists p Hp d g f ev sets sol HP Hac H) as (rank & Hr & Hn).
  pose proof (rank_budget p d rank n Hr Hn Hs) as BU.
  destruct (diagnosis_solves_all b64_laws b64_opp_laws p g f d ev sets sol Hp HP HD Hac H) as (c & τ & SW & ->).
  pose proof (ex_valid p Hp) as Hp'.
  destruct (diagnosis_solves_all exact_laws exact_opp_laws (exactly p) g' f' d ev' sets' sol' Hp' HP' (ex_data p) (ex_net_acyclic p Hac OR) H') as (c' & τ' & SW' & ->).
  split; [apply tab_len|]. apply Forall2_same_length_lookup_2; [by rewrite !tab_len|]. intros i x y Hx Hy. pose proof (lookup_lt_Some _ _ _ Hx) as Hi. rewrite tab_len in Hi.
  assert (Some x = Some (nmin (τ (Z.of_nat i)) max_tof)) as [= ->] by (rewrite <-Hx; apply tab_lookup; lia).
  assert (Some y = Some (nmin (τ' (Z.of_nat i)) max_tof)) as [= ->] by (rewrite <-Hy; apply tab_lookup; cbn [exactly pb_cells]; lia). clear Hx Hy.
  pose proof (all_accurate p OR HD Hp d _ _ BU CL c τ c' τ' SW SW' (acyclic_flow p d Hac) HF (Z.of_nat i) ltac:(lia)) as HA.
  eapply app_mono; [| | |exact (accurate_min _ _ _ τ _ τ' _ HA)]; try lia. cbv beta. apply Nat.mul_le_mono_r. specialize (Hn (Z.of_nat i)). lia.
Qed.
End times.
(** Such times are ordinary doubles. *)
Lemma time_plain K x y : Z.of_nat K ≤ 2 ^ 50 → app K (-310) 90 x y → nleb (Fin (pow2 (-99)) : @num exact) y = true →
  b64_ok x ∧ plain x ∧ (0 < rational x)%Qc ∧ ∃ b, y = Fin b ∧ (0 < b)%Qc ∧ (rational x <= (1 + errors K) * b ∧ b <= (1 + errors K) * rational x)%Qc.
Proof.
  intros HK [[b ->] (Ox & Fx & _ & R1 & R2) [_ T]] Hy. rewrite RV_Fin in *. apply nleb_RV in Hy; [|by eexists]. rewrite RV_Fin, QR_pow2 in Hy.
  destruct (q_val x Fx) as [Q1 Q2]. pose proof (rational_Fin x Q1) as Er. rewrite Er, RV_Fin in Q2. rewrite <-Q2 in R1, R2.
  pose proof (pe_small K HK) as HS. pose proof (pe_ge1 K) as H1. pose proof (pe_bound K ltac:(pose proof (small_half K HK); lra)) as HB.
  assert ((1 + eps) ^ K <= QR (1 + errors K))%R as HE.
  { rewrite QR_add, QR_1, <-INR_err. eapply Rle_trans; [exact HB|]. assert (unit_err = 2 * eps)%R as -> by (unfold unit_err, eps; change (-51) with (1 + -52); rewrite bpow_plus; done). lra. }
  assert (0 < QR b)%R as Pb by (eapply Rlt_le_trans; [apply bpow_gt_0|exact Hy]).
  assert (bpow radix2 (-99) = 2 * bpow radix2 (-100))%R as E99 by (change (-99) with (1 + -100); rewrite bpow_plus; done).
  assert (bpow radix2 100 = 1024 * bpow radix2 90)%R as E100 by (change 100 with (10 + 90); rewrite bpow_plus; done).
  assert (0 < QR (rational x))%R as Px by nra.
  split; [done|]. split.
  { right. exists (rational x). split; [done|]. rewrite !QR_le, !QR_pow2. pose proof (bpow_gt_0 radix2 90) as P90. split; [nra|]. rewrite E100. nra. }
  split; [apply QR_lt; by rewrite QR_0|]. exists b. split; [done|]. split; [apply QR_lt; by rewrite QR_0|].
  rewrite !QR_le, !QR_mul. rewrite !(Rmult_comm (QR (1 + _))). split; [eapply Rle_trans; [exact R1|]|eapply Rle_trans; [exact R2|]]; apply Rmult_le_compat_l; lra.
Qed.
