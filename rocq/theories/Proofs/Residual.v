(** Concentrations computed with doubles meet the equations of the exact flow
    almost, on networks with cycles too. *)
From Coq Require Import ZArith Reals Lra Psatz QArith Qcanon Qreals.
From Coq.Floats Require Import SpecFloat.
From Flocq Require Import Core.Core IEEE754.BinarySingleNaN.
From Verif.Proofs Require Import B64Bridge.
From Verif.Model Require Import Base Num OMap Containers Solution AssembledConnections Tarjan TracerTofSolver Toolbox.
From Verif.Spec Require Import AcyclicSpec AccuracySpec ResidualSpec.
From Verif.Proofs Require Import Util OMapFacts ExactNum QcLra OrdLaws B64Laws DerivedExact ToolboxState ToolboxRates SolverBase SolverRun SolverTop SolverGen SolverOrd
  ToolboxFlow ToolboxVal ToolboxSane ToolboxThms DerivedOrd OppLaws TofLaws Rounding Accuracy.
Open Scope Z_scope.

#[local] Existing Instance B64Bridge.Hprec.
#[local] Existing Instance B64Bridge.Hmax.

(** * The last sweep *)
Section sweep.
Context {N : Num} (n : Z) (A : list arc) (pv : list num) (src : cellset_values) (inj : Z → option num).
Notation cellc := (cellc n A src inj).
Notation run_cell := (run_cell n A pv src inj).
Notation run_gs_cell := (run_gs_cell n A pv src inj).
Notation run_loop := (run_loop n A pv src inj).
Notation upd := (upd_cell n A pv src inj).
Context (comps : list (list Z)) (I : fstate → Prop).
Context (Hcell : ∀ st v, v ∈ concat comps → I st → cell_ok n A src inj st.2 v = true ∧ I (upd st v)).

(** A loop that ends did a last sweep that hardly changed the concentrations. *)
Lemma loop_last C fuel st dt dc st' : (∀ v, v ∈ C → v ∈ concat comps) → I st → run_loop fuel C st dt dc = Ok st' →
  nltb gs_tof_tol dt || nltb gs_tracer_tol dc = true →
  ∃ st0 dt' dc', foldM run_gs_cell (st0, n0, n0) C = Ok (st', dt', dc') ∧ nltb gs_tracer_tol dc' = false ∧ I st0 ∧ same_off C st st0.
Proof.
  intros HC. revert st dt dc. induction fuel as [|fuel IH]; intros st dt dc HI H Hd; cbn [SolverRun.run_loop] in H; rewrite Hd in H; [done|].
  apply bind_Ok in H as ([[st1 dt1] dc1] & E & H). cbn [fst snd] in H. unfold SolverRun.run_sweep in E.
  destruct (inv_sweep n A pv src inj comps I Hcell C st n0 n0 HC HI) as (r & Er & HI1). rewrite E in Er. injection Er as <-. cbn [fst] in HI1.
  destruct (nltb gs_tof_tol dt1 || nltb gs_tracer_tol dc1) eqn:Hd1.
  - destruct (IH _ _ _ HI1 H Hd1) as (st0 & dt' & dc' & H1 & H2 & H3 & H4). exists st0, dt', dc'. split_and!; try done.
    eapply same_off_trans; [|exact H4]. by apply (sweep_off n A pv src inj C C _ _ _ _ ltac:(done) E).
  - assert (st1 = st') as <-. { destruct fuel; cbn [SolverRun.run_loop] in H; rewrite Hd1 in H; by injection H. }
    exists st, dt1, dc1. apply orb_false_iff in Hd1 as [_ Hd1]. split_and!; try done. 
Qed.

(** In it, every cell is computed from values of before and after the sweep. *)
Lemma sweep_at C st dt dc r v : NoDup C → (∀ v, v ∈ C → v ∈ concat comps) → I st → foldM run_gs_cell (st, dt, dc) C = Ok r → v ∈ C →
  ∃ st1, I st1 ∧ r.1.1.2 v = cellc st1.2 v ∧ ∀ u, st1.2 u = st.2 u ∨ st1.2 u = r.1.1.2 u.
Proof.
  revert st dt dc. induction C as [|w C IH]; intros st dt dc Hn HC HI; [by intros _ ?%elem_of_nil|]. cbn [foldM].
  intros ([[st2 dt2] dc2] & E & H)%bind_Ok. unfold SolverRun.run_gs_cell in E. apply bind_Ok in E as (st3 & E & [= <- _ _]). cbn [fst snd] in E.
  apply run_cell_inv in E as [Hok ->]. apply NoDup_cons in Hn as [Hw Hn].
  destruct (Hcell st w (HC w ltac:(left)) HI) as [_ HI2].
  pose proof (sweep_off n A pv src inj C C _ _ _ _ ltac:(done) H) as Hoff.
  intros [->|Hv]%elem_of_cons.
  - exists st. split; [done|]. split; [|by left]. destruct (Hoff w Hw) as [_ ->]. cbn. by rewrite fupd_eq.
  - destruct (IH _ _ _ Hn ltac:(intros; apply HC; by right) HI2 H Hv) as (st1 & H1 & H2 & H3). exists st1. split_and!; try done.
    intros u. destruct (H3 u) as [E|E]; [|by right]. destruct (decide (u = w)) as [->|Hne].
    + right. rewrite E. by destruct (Hoff w Hw) as [_ ->].
    + left. rewrite E. cbn. by rewrite fupd_ne.
Qed.

(** The reported change is at least that of each cell. *)
Section changes.
Context (good small : num → Prop) (Hmax : ∀ st st' a v, v ∈ concat comps → I st → I st' → good a → good (nmax a (tracer_change (st.2 v) (st'.2 v))) ∧
  (small (nmax a (tracer_change (st.2 v) (st'.2 v))) → small a ∧ small (tracer_change (st.2 v) (st'.2 v)))).
Lemma sweep_changes C st dt dc r : NoDup C → (∀ v, v ∈ C → v ∈ concat comps) → I st → good dc → foldM run_gs_cell (st, dt, dc) C = Ok r → small r.2 →
  small dc ∧ ∀ v, v ∈ C → small (tracer_change (st.2 v) (r.1.1.2 v)).
Proof.
  revert st dt dc. induction C as [|w C IH]; intros st dt dc Hn HC HI Hg; [intros [= <-] Hs; split; [done|by intros v ?%elem_of_nil]|]. cbn [foldM].
  intros ([[st2 dt2] dc2] & E & H)%bind_Ok Hs. unfold SolverRun.run_gs_cell in E. apply bind_Ok in E as (st3 & E & [= <- _ <-]). cbn [fst snd] in *.
  apply run_cell_inv in E as [Hok ->]. apply NoDup_cons in Hn as [Hw Hn].
  destruct (Hcell st w (HC w ltac:(left)) HI) as [_ HI2].
  pose proof (sweep_off n A pv src inj C C _ _ _ _ ltac:(done) H) as Hoff.
  destruct (Hmax st _ dc w (HC w ltac:(left)) HI HI2 Hg) as [Hg2 Hs2].
  destruct (IH _ _ _ Hn ltac:(intros; apply HC; by right) HI2 Hg2 H Hs) as [H1 H2].
  apply Hs2 in H1 as [H1 H3]. split; [done|]. intros v [->|Hv]%elem_of_cons.
  - by destruct (Hoff w Hw) as [_ ->].
  - specialize (H2 v Hv). cbn in H2. rewrite fupd_ne in H2; [done|]. by intros ->.
Qed.
End changes.
End sweep.

(** * The change of a concentration *)
Notation val x := (SF2R radix2 x).
Lemma unit_inv x : unit_num b64_laws x → ∃ b : bf, x = B2SF b ∧ is_finite b = true ∧ v b = val x ∧ (0 <= val x <= 1)%R.
Proof.
  intros [[[b ->]%ok_inv H0] H1]. rewrite n0_zero in H0. rewrite n1_one in H1. cbn [nleb b64] in H0, H1.
  apply SFleb_iff in H0 as (_ & Nb & H0). apply SFleb_iff in H1 as (_ & _ & H1). rewrite v_zero in H0. rewrite v_one in H1.
  assert (is_finite b = true) as Fb. { apply v_lt_big_fin; [done|done|]. eapply Rle_lt_trans; [exact H1|]. change 1%R with (bpow radix2 0). by apply bpow_lt. }
  assert (v b = val (B2SF b)) as E by (rewrite v_fin, SF2R_B2SF; done). exists b. rewrite <-E. done.
Qed.
Definition tol : R := val (@gs_tracer_tol b64).
Lemma tol_val : (0 < tol)%R ∧ (tol * (1 + eps) <= / 1000000000 + 2 * eps)%R ∧ (tol < 1)%R.
Proof.
  assert (tol = 4835703278458517 * bpow radix2 (-82))%R as E by reflexivity.
  change (-82) with (-52 + -30) in E. rewrite bpow_plus in E. unfold eps. change (bpow radix2 (-30)) with (/ 1073741824)%R in E. 
  change (bpow radix2 (-52)) with (/ 4503599627370496)%R in *. lra.
Qed.
Lemma sub_small (a b : bf) : is_finite a = true → is_finite b = true → (0 <= v a <= 1)%R → (0 <= v b <= 1)%R →
  is_finite (Bminus mode_NE b a) = true ∧ v (Bminus mode_NE b a) = rnd (v b - v a).
Proof.
  intros Fa Fb Ha Hb. pose proof (Bminus_correct prec emax Hprec Hmax mode_NE b a Fb Fa) as H.
  rewrite (v_fin a Fa) in *. rewrite (v_fin b Fb) in *. change (round radix2 _ _ ?x) with (rnd x) in H.
  rewrite Rlt_bool_true in H.
  - destruct H as (H1 & H2 & _). split; [done|]. rewrite v_fin by done. exact H1.
  - apply (Rle_lt_trans _ 1); [|change 1%R with (bpow radix2 0); by apply bpow_lt]. apply Rabs_le. split.
    + assert (rnd (- (1)) = - (1))%R as <-. { unfold rnd. rewrite round_NE_opp. f_equal. apply rnd_1. } apply rnd_le. lra.
    + rewrite <-rnd_1. apply rnd_le. lra.
Qed.
Lemma sub_bound x : (Rabs (rnd x) <= tol)%R → (Rabs x <= tol * (1 + eps))%R.
Proof.
  intros H. destruct tol_val as (T1 & _ & _). pose proof eps_pos as He.
  assert (Rabs (rnd x) = rnd (Rabs x)) as E. { unfold rnd. by rewrite round_NE_abs by (apply fexp_correct; reflexivity). } rewrite E in H.
  destruct (Rle_lt_dec (bpow radix2 (-1022)) (Rabs x)) as [Hx|Hx].
  - destruct (rnd_rel (Rabs x) Hx) as [_ Hr]. rewrite pow_1 in Hr. eapply Rle_trans; [exact Hr|]. apply Rmult_le_compat_r; lra.
  - assert (bpow radix2 (-1022) <= tol)%R as Ht.
    { assert (tol = 4835703278458517 * bpow radix2 (-82))%R as -> by reflexivity. pose proof (bpow_le radix2 (-1022) (-82) ltac:(lia)). pose proof (bpow_ge_0 radix2 (-82)). lra. }
    nra.
Qed.
Lemma change_ok a b : unit_num b64_laws a → unit_num b64_laws b → ∃ z : bf, tracer_change a b = B2SF z ∧ is_finite z = true ∧
  ((v z <= tol)%R → (Rabs (val b - val a) <= tol * (1 + eps))%R).
Proof.
  intros (x & -> & Fx & Ex & Hx)%unit_inv (y & -> & Fy & Ey & Hy)%unit_inv. unfold tracer_change. destruct (zero_change _ _).
  - exists Bone. split; [apply n1_one|]. split; [done|]. rewrite v_one. pose proof tol_val. lra.
  - exists (Babs (Bminus mode_NE y x)). rewrite <-Ex in *. rewrite <-Ey in *. destruct (sub_small x y Fx Fy Hx Hy) as [H1 H2]. split_and!.
    + cbn [nabs nsub b64]. change b64_prec with B64Bridge.prec; change b64_emax with B64Bridge.emax. rewrite sub_equiv. by destruct (Bminus _ _ _).
    + by rewrite is_finite_Babs.
    + rewrite v_fin by (by rewrite is_finite_Babs). rewrite B2R_Babs, <-v_fin, H2 by done. apply sub_bound.
Qed.
Lemma tol_bf : ∃ t : bf, @gs_tracer_tol b64 = B2SF t ∧ is_finite t = true ∧ tol = v t.
Proof.
  assert (valid_binary prec emax (@gs_tracer_tol b64) = true) as Hv by (vm_compute; reflexivity).
  assert (is_finite_SF (@gs_tracer_tol b64) = true) as Hf by (vm_compute; reflexivity).
  unfold tol. generalize dependent (@gs_tracer_tol b64). intros x Hv Hf. exists (SF2B x Hv). rewrite B2SF_SF2B, <-is_finite_SF_B2SF, B2SF_SF2B.
  split; [done|]. split; [done|]. rewrite v_fin; [|by rewrite <-is_finite_SF_B2SF, B2SF_SF2B]. by rewrite <-SF2R_B2SF, B2SF_SF2B.
Qed.
Lemma max_small (x z : bf) : is_nan x = false → is_nan z = false → nltb gs_tracer_tol (@nmax b64 (B2SF x) (B2SF z)) = false →
  nltb gs_tracer_tol (B2SF x : @num b64) = false ∧ nltb gs_tracer_tol (B2SF z : @num b64) = false.
Proof.
  intros Nx Nz. destruct tol_bf as (t & -> & Ft & _). assert (is_nan t = false) as Nt by (by destruct t).
  unfold nmax. cbn [nltb b64]. rewrite (SFltb_v x z) by done. destruct (Rlt_bool_spec (v x) (v z)) as [H|H]; rewrite !SFltb_v by done.
  - destruct (Rlt_bool_spec (v t) (v z)); [done|]. intros _. split; [apply Rlt_bool_false; lra|done].
  - destruct (Rlt_bool_spec (v t) (v x)); [done|]. intros _. split; [done|apply Rlt_bool_false; lra].
Qed.
Lemma small_val (z : bf) : is_finite z = true → nltb gs_tracer_tol (B2SF z : @num b64) = false → (v z <= tol)%R.
Proof.
  intros Fz. destruct tol_bf as (t & Et & Ft & ->).
  rewrite Et. cbn [nltb b64]. rewrite SFltb_v; [|by destruct t|by destruct z]. destruct (Rlt_bool_spec (v t) (v z)); done.
Qed.

(** * Errors relative to a bound *)
(** A double [x] that stands for [y], with an error of at most [k] roundings of [B]. *)
Record ab (k : nat) (lo hi : Z) (x : @num b64) (y B : @num exact) : Prop := {
  ab_ok : b64_ok x ∧ is_finite_SF x = true ∧ (0 <= val x)%R;
  ab_fin : finite y ∧ finite B;
  ab_le : (0 <= RV y <= RV B)%R;
  ab_err : (Rabs (val x - RV y) <= ((1 + eps) ^ k - 1) * RV B)%R;
  ab_tame : tame lo hi (RV B)
}.
Lemma ab_mono j k lo hi lo' hi' x y B : (j ≤ k)%nat → lo' ≤ lo → hi ≤ hi' → ab j lo hi x y B → ab k lo' hi' x y B.
Proof.
  intros Hk Hl Hh [H1 H2 H3 H4 H5]. split; try done; [|by eapply tame_mono]. eapply Rle_trans; [exact H4|]. pose proof (pe_mono j k Hk).
  apply Rmult_le_compat_r; lra.
Qed.
Lemma ab_inv k lo hi x y B : ab k lo hi x y B → ∃ b : bf, x = B2SF b ∧ is_finite b = true ∧ v b = val x ∧ (0 <= v b)%R.
Proof.
  intros [((b & ->)%ok_inv & Hf & Hp) _ _ _ _]. assert (is_finite b = true) as Fb by (by destruct b).
  exists b. rewrite v_fin, <-SF2R_B2SF by done. done.
Qed.
Lemma rnd_ab m s t B : (0 <= s)%R → (0 <= t <= B)%R → (Rabs (s - t) <= ((1 + eps) ^ m - 1) * B)%R → tame (-900) 1000 B →
  (Rabs (rnd s - t) <= ((1 + eps) ^ (S m) - 1) * B)%R.
Proof.
  intros Hs Ht Hm HB. pose proof eps_pos as He. pose proof (pe_ge1 m) as H1. cbn [Rpow_def.pow]. set (P := ((1 + eps) ^ m)%R) in *.
  assert (s <= P * B)%R as Hle. { apply Rabs_le_inv in Hm. lra. }
  assert (Rabs (rnd s - s) <= eps * (P * B))%R as Hr; [|apply Rabs_le; apply Rabs_le_inv in Hr, Hm; lra].
  destruct HB as [[->|HB] _]. { replace s with 0%R by lra. rewrite rnd_0, Rminus_0_r, Rabs_R0. lra. }
  destruct (Rle_lt_dec (bpow radix2 (-1022)) s) as [Hx|Hx].
  - assert (Rabs (rnd s - s) <= eps * s)%R; [|nra].
    assert (eps <= 1)%R as He1. { change 1%R with (bpow radix2 0). by apply bpow_le. }
    destruct (rnd_rel s Hx) as [R1 R2]. rewrite pow_1 in R1, R2. apply Rabs_le. split; nra.
  - assert (0 <= rnd s <= bpow radix2 (-1022))%R as Hrs.
    { split; [rewrite <-rnd_0; by apply rnd_le|]. assert (rnd (bpow radix2 (-1022)) = bpow radix2 (-1022)) as <-; [|apply rnd_le; lra].
      apply round_generic; [apply valid_rnd_N|]. apply generic_format_bpow. by vm_compute. }
    assert (bpow radix2 (-1022) <= eps * bpow radix2 (-900))%R as Hb. { unfold eps. rewrite <-bpow_plus. by apply bpow_le. }
    assert (eps * bpow radix2 (-900) <= eps * (P * B))%R. { apply Rmult_le_compat_l; [lra|]. pose proof (bpow_ge_0 radix2 (-900)). nra. }
    apply Rabs_le. lra.
Qed.
Lemma round_ab m (z : bf) s y B lo hi : is_nan z = false → v z = Rmin (rnd s) big → (0 <= s)%R → finite y → finite B → (0 <= RV y <= RV B)%R →
  (Rabs (s - RV y) <= ((1 + eps) ^ m - 1) * RV B)%R → Z.of_nat m < 2 ^ 50 → -900 ≤ lo → hi ≤ 1000 → tame lo hi (RV B) → ab (S m) lo hi (B2SF z) y B.
Proof.
  intros Nz Ez Ps Fy FB Hy Hm Hk Hlo Hhi HB. assert (tame (-900) 1000 (RV B)) as HB' by (eapply tame_mono; [| |exact HB]; lia).
  pose proof (rnd_ab m s _ _ Ps Hy Hm HB') as Hr. pose proof (pe_small (S m) ltac:(lia)) as H2.
  assert (rnd s < big)%R as Hb.
  { apply Rabs_le_inv in Hr. apply (Rle_lt_trans _ (2 * RV B)); [nra|]. apply (Rle_lt_trans _ (2 * bpow radix2 1000)); [destruct HB'; lra|].
    change 2%R with (bpow radix2 1). rewrite <-bpow_plus. by apply bpow_lt. }
  rewrite Rmin_left in Ez by lra. assert (0 <= rnd s)%R as Pr. { rewrite <-rnd_0. by apply rnd_le. }
  assert (is_finite z = true) as Fz. { apply v_lt_big_fin; [done|lra|lra]. }
  assert (val (B2SF z) = rnd s) as Ev. { rewrite SF2R_B2SF, <-v_fin, Ez by done. done. }
  split; try done.
  - split; [apply ok_B2SF|]. split; [by destruct z|]. by rewrite Ev.
  - by rewrite Ev.
Qed.
Lemma app_diff k lo hi x y : app k lo hi x y → (Rabs (val x - RV y) <= ((1 + eps) ^ k - 1) * RV y)%R.
Proof.
  intros [H1 (H2 & H3 & H4 & [H5 H6]) _]. pose proof (pe_ge1 k) as Hg. apply Rabs_le. split; [|lra].
  assert (0 <= val x)%R by (eapply rel_nonneg; [exact H4|by split]). nra.
Qed.
Lemma ab_mul k lo hi h x y : unit_num b64_laws h → app k lo hi x y → Z.of_nat k < 2 ^ 50 → -900 ≤ lo → hi ≤ 1000 →
  ab (S k) lo hi (nmul h x) (nmul (q_of h) y) y.
Proof.
  intros (a & -> & Fa & Ea & Ha)%unit_inv Hx Hk Hlo Hhi. pose proof (app_diff _ _ _ _ _ Hx) as Hd. destruct Hx as [Fy Hx Ht].
  pose proof (tame_nonneg _ _ _ Ht) as Py. destruct (near_inv _ _ _ Hx) as (b & -> & Fb & Nb & Eb & Pb & Rb).
  destruct (q_val (B2SF a)) as [Fq Eq]; [by destruct a|]. destruct (RV_mul (q_of (B2SF a)) y Fq Fy) as [Fm Em].
  cbn [nmul b64]. change b64_prec with B64Bridge.prec; change b64_emax with B64Bridge.emax. rewrite mul_equiv.
  rewrite <-Ea in Ha, Eq. destruct (bmult_v a b) as [Nz Ez]; try done; [lra|].
  assert (0 <= v a * v b)%R by (apply Rmult_le_pos; lra).
  assert (RV (nmul (q_of (B2SF a)) y) = v a * RV y)%R as E by (rewrite Em, Eq; done). rewrite <-Eb in Hd.
  eapply round_ab; try done.
  - rewrite E. nra.
  - rewrite E. replace (v a * v b - v a * RV y)%R with (v a * (v b - RV y))%R by ring. rewrite Rabs_mult, (Rabs_pos_eq (v a)) by lra.
    pose proof (Rabs_pos (v b - RV y)). nra.
Qed.
Lemma ab_add k lo hi x y B x' y' B' : ab k lo hi x y B → ab k lo hi x' y' B' → Z.of_nat k < 2 ^ 50 → -900 ≤ lo → hi ≤ 999 →
  ab (S k) lo (hi + 1) (nadd x x') (nadd y y') (nadd B B').
Proof.
  intros H H' Hk Hlo Hhi. destruct (ab_inv _ _ _ _ _ _ H) as (a & -> & Fa & Ea & Pa). destruct (ab_inv _ _ _ _ _ _ H') as (b & -> & Fb & Eb & Pb).
  destruct H as [_ [F1 F2] L1 E1 T1], H' as [_ [F1' F2'] L1' E1' T1']. rewrite <-Ea in E1. rewrite <-Eb in E1'.
  destruct (RV_add y y' F1 F1') as [Fy Ey]. destruct (RV_add B B' F2 F2') as [FB EB].
  cbn [nadd b64]. change b64_prec with B64Bridge.prec; change b64_emax with B64Bridge.emax. rewrite add_equiv.
  destruct (bplus_v a b) as [Nz Ez]; try done; [by destruct a|by destruct b|].
  eapply round_ab; try done; try lia.
  - lra.
  - rewrite Ey, EB. lra.
  - rewrite Ey, EB. replace (v a + v b - (RV y + RV y'))%R with ((v a - RV y) + (v b - RV y'))%R by ring.
    eapply Rle_trans; [apply Rabs_triang|]. lra.
  - rewrite EB. by apply tame_add.
Qed.
Lemma ab_0 k lo hi : ab k lo hi n0 n0 n0.
Proof.
  split.
  - split; [apply (ok_B2SF (B754_zero false))|]. split; [done|]. cbn. lra.
  - by split; eexists.
  - rewrite RV_0. lra.
  - rewrite RV_0. cbn. rewrite Rminus_0_r, Rabs_R0. lra.
  - rewrite RV_0. apply tame_0.
Qed.
Lemma ab_sum {X} k lo hi (h : X → @num b64) (h' B : X → @num exact) (l : list X) : (∀ x, x ∈ l → ab k lo hi (h x) (h' x) (B x)) →
  Z.of_nat (k + length l) < 2 ^ 50 → -900 ≤ lo → hi ≤ 900 → ab (k + length l) lo (hi + 50) (sum_left (map h l)) (sum_left (map h' l)) (sum_left (map B l)).
Proof.
  intros Hl Hk Hlo Hhi. unfold sum_left.
  assert (∀ i a a' b, Z.of_nat (k + i + length l) < 2 ^ 50 → ab (k + i) lo (hi + 50) a a' b → (RV b <= INR i * bpow radix2 hi)%R →
    ab (k + i + length l) lo (hi + 50) (foldl nadd a (map h l)) (foldl nadd a' (map h' l)) (foldl nadd b (map B l))) as HG.
  { clear Hk. induction l as [|x l IH]; intros i a a' b Hb HA Hi; cbn [map foldl length]; [by rewrite Nat.add_0_r|].
    cbn [length] in Hb. pose proof (Hl x ltac:(left)) as Hx. replace (k + i + S (length l))%nat with (k + S i + length l)%nat by lia.
    assert (ab (S (k + i)) lo (hi + 50 + 1) (nadd a (h x)) (nadd a' (h' x)) (nadd b (B x))) as Ha.
    { apply ab_add; try lia; [done|]. eapply ab_mono; [| | |exact Hx]; lia. }
    assert (RV (nadd b (B x)) <= INR (S i) * bpow radix2 hi)%R as Hle.
    { destruct (RV_add b (B x)) as [_ ->]; [apply HA|apply Hx|]. rewrite S_INR. pose proof (proj2 (ab_tame _ _ _ _ _ _ Hx)). lra. }
    apply IH; [intros y Hy; apply Hl; by right|lia| |done].
    replace (k + S i)%nat with (S (k + i)) by lia. destruct Ha as [A1 A2 A3 A4 [A5 A6]]. split; try done. split; [done|].
    eapply Rle_trans; [exact Hle|]. apply bpow_sum. lia. }
  replace (k + length l)%nat with (k + 0 + length l)%nat by lia. apply HG; [lia|apply ab_0|]. rewrite RV_0. cbn. lra.
Qed.
Lemma ab_bound k lo hi x y B B' : ab k lo hi x y B → finite B' → (RV B <= RV B')%R → tame lo hi (RV B') → ab k lo hi x y B'.
Proof.
  intros [H1 [H2 H2'] H3 H4 H5] F HB HB'. pose proof (pe_ge1 k). split; try done; try lra.
  eapply Rle_trans; [exact H4|]. apply Rmult_le_compat_l; lra.
Qed.
Lemma ab_div j k lo hi x y x' t : ab j lo hi x y t → app k lo hi x' t → (0 < RV t)%R → Z.of_nat (j + k) < 2 ^ 50 →
  (Rabs (val (ndiv x x') * RV t - RV y) <= ((1 + eps) ^ S (j + k) - 1) * RV t)%R.
Proof.
  intros H H' Pt Hk. destruct (ab_inv _ _ _ _ _ _ H) as (a & -> & Fa & Ea & Pa). destruct H as [_ [F1 F2] L1 E1 T1]. rewrite <-Ea in E1.
  destruct H' as [_ H' _]. pose proof (near_pos _ _ _ Pt H') as Px. destruct (near_inv _ _ _ H') as (b & -> & Fb & Nb & Eb & Pb & Rb).
  rewrite <-Eb in Px. cbn [ndiv b64]. change b64_prec with B64Bridge.prec; change b64_emax with B64Bridge.emax. rewrite div_equiv.
  destruct (bdiv_v a b) as [Nz Ez]; try done. assert (0 < / v b)%R as Pi by (by apply Rinv_0_lt_compat).
  set (q := (RV y / RV t)%R). assert (q * RV t = RV y)%R as Eq. { unfold q. field. lra. }
  assert (0 <= q <= 1)%R as Hq. { split; apply (Rmult_le_reg_r (RV t)); try done; lra. }
  set (s := (v a / v b)%R) in *. assert (s * v b = v a)%R as Es. { unfold s. field. lra. }
  assert (0 <= s)%R as Ps by (unfold s; apply Rmult_le_pos; lra).
  destruct Rb as [R1 R2]. pose proof (pe_ge1 j) as G1. pose proof (pe_ge1 k) as G2.
  assert (Rabs (s - q) <= ((1 + eps) ^ (j + k) - 1) * 1)%R as Hs.
  { rewrite pow_add. set (P := ((1 + eps) ^ j)%R) in *. set (Q := ((1 + eps) ^ k)%R) in *. apply Rabs_le_inv in E1. rewrite <-Eq in E1. apply Rabs_le. split.
    - assert (q - s <= P * Q - 1)%R; [|lra].
      assert ((q - (P - 1)) * RV t <= s * Q * RV t)%R as H1. { apply (Rle_trans _ (s * v b)); [lra|]. rewrite Rmult_assoc. apply Rmult_le_compat_l; lra. }
      apply Rmult_le_reg_r in H1; [|done]. destruct (Rle_lt_dec s 1) as [H2|H2]; [|nra]. nra.
    - assert (s - q <= P * Q - 1)%R; [|lra].
      assert (s * RV t <= (q + (P - 1)) * Q * RV t)%R as H1.
      { apply (Rle_trans _ (s * (v b * Q))); [apply Rmult_le_compat_l; lra|]. rewrite <-Rmult_assoc, Es.
        apply (Rle_trans _ ((q + (P - 1)) * RV t * Q)); [|right; ring]. apply Rmult_le_compat_r; lra. }
      apply Rmult_le_reg_r in H1; [|done]. nra. }
  assert (tame (-900) 1000 1) as T1'. { split; [right|]; change 1%R with (bpow radix2 0); by apply bpow_le. }
  pose proof (rnd_ab (j + k) s q 1 Ps Hq Hs T1') as Hr. pose proof (pe_small (S (j + k)) ltac:(lia)) as H2.
  assert (rnd s < big)%R as Hb.
  { apply Rabs_le_inv in Hr. apply (Rle_lt_trans _ 2); [nra|]. change 2%R with (bpow radix2 1). by apply bpow_lt. }
  rewrite Rmin_left in Ez by lra. assert (0 <= rnd s)%R as Pr. { rewrite <-rnd_0. by apply rnd_le. }
  assert (is_finite (Bdiv mode_NE a b) = true) as Fz. { apply v_lt_big_fin; [done|lra|lra]. }
  assert (val (B2SF (Bdiv mode_NE a b)) = rnd s) as Ev. { rewrite SF2R_B2SF, <-v_fin, Ez by done. done. }
  rewrite Ev. rewrite <-Eq. replace (rnd s * RV t - q * RV t)%R with ((rnd s - q) * RV t)%R by ring.
  rewrite Rabs_mult, (Rabs_pos_eq (RV t)) by lra. apply Rmult_le_compat_r; lra.
Qed.

(** * One cell *)
Section cell.
Context (p : @problem b64) (OR : ordinary p) (HD : @data b64 b64_ok p) (Hp : valid p) (d : direction).
Notation p' := (exactly p).
Notation n := (pb_cells p).
Notation m := (pb_rates p).
Notation m' := (pb_rates p').
Notation A := (flow d p).
Notation A' := (flow d p').
Notation fan := (fan p d).
Notation taps := (taps p d).
Context (v : Z) (Hk : Z.of_nat (cost d p v) ≤ 2 ^ 50).
Notation T' := (total_in p' d v).

Lemma flux_app_v u : app (fan v) (-100) 150 (arc_flux A u v) (arc_flux A' u v).
Proof. by apply flux_app_cost. Qed.
Lemma total_app_v : app (2 * fan v + taps v + 1) (-100) 201 (total_in p d v) T'.
Proof. by apply total_app_cost. Qed.
Lemma parts_v : finite (influx n A' v) ∧ finite (cell_total d m' v) ∧ (0 <= RV (influx n A' v))%R ∧
  (∀ id r, well_rate d m id v = Some r → (RV (q_of r) <= RV (cell_total d m' v))%R) ∧ (0 <= RV (cell_total d m' v))%R ∧
  (RV T' = RV (influx n A' v) + RV (cell_total d m' v))%R.
Proof.
  pose proof Hk as B. rewrite cost_eq in B. pose proof (up_length p d v) as Hu.
  assert (app (fan v + length (upstream n A v)) (-100) (150 + 50) (influx n A v) (influx n A' v)) as H1.
  { unfold influx. rewrite ex_up by done. apply app_sum; try lia. intros u _. apply flux_app_v. }
  assert (app (0 + taps v) (-100) (100 + 50) (cell_total d m v) (cell_total d m' v)) as H2.
  { unfold cell_total, Accuracy.taps. rewrite ex_cell_rates by done. rewrite <-(map_id (cell_rates d m v)) at 2. apply app_sum; try (unfold Accuracy.taps in *; lia).
    intros x (id & Hx)%cell_rates_elem. by eapply rate_app. }
  destruct H1 as [F1 N1 T1], H2 as [F2 N2 T2]. split_and!; try done; try (by eapply tame_nonneg).
  - intros id r Hr. unfold cell_total. rewrite ex_cell_rates.
    assert (r ∈ cell_rates d m v) as Hin. { apply cell_rates_elem. by exists id. }
    assert (∀ x, x ∈ cell_rates d m v → finite (q_of x) ∧ (0 <= RV (q_of x))%R) as Hall.
    { intros x (i & Hx)%cell_rates_elem. destruct (rate_app p OR HD Hp d i v x Hx) as [Fx _ Tx]. split; [done|by eapply tame_nonneg]. }
    revert Hin Hall. generalize (cell_rates d m v). intros l Hin Hall. unfold sum_left.
    assert (∀ acc, finite acc → (0 <= RV acc)%R → finite (foldl nadd acc (map q_of l)) ∧ (RV acc <= RV (foldl nadd acc (map q_of l)))%R ∧
      ∀ x, x ∈ l → (RV (q_of x) <= RV (foldl nadd acc (map q_of l)))%R) as HG; [|by apply HG; [by eexists|rewrite RV_0; lra|]].
    clear Hin. induction l as [|x l IH]; intros acc Fa Pa; [split; [done|]; split; [cbn; lra|by intros x ?%elem_of_nil]|]. cbn [map foldl].
    destruct (Hall x ltac:(left)) as [Fx Px]. destruct (RV_add acc (q_of x) Fa Fx) as [Fs Es].
    destruct (IH ltac:(intros; apply Hall; by right) (nadd acc (q_of x)) Fs ltac:(lra)) as (I1 & I2 & I3).
    split; [done|]. split; [lra|]. intros y [->|Hy]%elem_of_cons; [lra|by apply I3].
  - apply RV_add; done.
Qed.

Context (h : Z → @num b64) (Hh : ∀ u, unit_num b64_laws (h u)) (id : cellset_id).
Notation q u := (q_of (h u)).
Lemma mix_ab : ab (2 * fan v + 1) (-100) 200 (mix n A h v) (mix n A' (λ u, q u) v) (influx n A' v).
Proof.
  pose proof Hk as B. rewrite cost_eq in B. pose proof (up_length p d v) as Hu. unfold mix, influx. rewrite ex_up by done.
  eapply (ab_mono (S (fan v) + length (upstream n A v)) _ (-100) (150 + 50)); try lia.
  apply ab_sum; try lia. intros u _. apply ab_mul; [done|apply flux_app_v|lia..].
Qed.
Lemma own_ab : ab (2 * fan v + 2) (-100) 201 (own p d id v (mix n A h v)) (own p' d id v (mix n A' (λ u, q u) v)) T'.
Proof.
  pose proof Hk as B. rewrite cost_eq in B. pose proof mix_ab as HM. destruct parts_v as (F1 & F2 & P1 & Hr & P2 & ET).
  pose proof total_app_v as [FT _ TT]. unfold own. rewrite ex_well_rate. destruct (well_rate d m id v) as [r|] eqn:Er; cbn [fmap option_fmap option_map].
  - pose proof (rate_app p OR HD Hp d id v r Er) as Ha. pose proof (app_diff _ _ _ _ _ Ha) as Hd. specialize (Hr id r Er).
    assert (ab (2 * fan v + 1) (-100) 200 r (q_of r) (q_of r)) as Hab.
    { apply (ab_mono 0 _ (-100) 100); try lia. destruct Ha as [Fr Nr Tr]. pose proof (near_nonneg _ _ _ Nr). pose proof (tame_nonneg _ _ _ Tr).
      destruct Nr as (N1 & N2 & _). split; try done. lra. }
    pose proof (ab_add _ _ _ _ _ _ _ _ _ HM Hab ltac:(lia) ltac:(lia) ltac:(lia)) as HA.
    replace (2 * fan v + 2)%nat with (S (2 * fan v + 1)) by lia. eapply ab_bound; [exact HA|done| |done].
    destruct (RV_add (influx n A' v) (q_of r)) as [_ ->]; [done|apply Ha|]. lra.
  - apply (ab_mono (2 * fan v + 1) _ (-100) 201); try lia. eapply (ab_bound _ _ _ _ _ (influx n A' v)); [eapply ab_mono; [| | |exact HM]; lia|done|lra|done].
Qed.
Lemma cell_ab : (0 < RV T')%R →
  (Rabs (val (ndiv (own p d id v (mix n A h v)) (total_in p d v)) * RV T' - RV (own p' d id v (mix n A' (λ u, q u) v))) <=
    INR (cost d p v - 2) * (2 * eps) * RV T')%R.
Proof.
  intros PT. pose proof Hk as B. rewrite cost_eq in B. pose proof (ab_div _ _ _ _ _ _ _ _ own_ab total_app_v PT ltac:(lia)) as H.
  eapply Rle_trans; [exact H|]. apply Rmult_le_compat_r; [lra|].
  pose proof (pe_mono (S (2 * fan v + 2 + (2 * fan v + taps v + 1))) (cost d p v - 2) ltac:(rewrite cost_eq; lia)) as Hm.
  pose proof (small_half (cost d p v - 2) ltac:(lia)) as Hs. pose proof (pe_bound (cost d p v - 2) ltac:(lra)). lra.
Qed.

(** What a small change of the concentrations changes. *)
Context (c : Z → @num b64) (Hc : ∀ u, unit_num b64_laws (c u)) (δ : R) (Hδ : ∀ u, flows A u v → (Rabs (val (h u) - val (c u)) <= δ)%R).
Lemma mix_diff : finite (mix n A' (λ u, q u) v) ∧ finite (mix n A' (λ u, q_of (c u)) v) ∧
  (Rabs (RV (mix n A' (λ u, q u) v) - RV (mix n A' (λ u, q_of (c u)) v)) <= δ * RV (influx n A' v))%R.
Proof.
  unfold mix, influx, sum_left. rewrite ex_up by done.
  assert (∀ u, u ∈ upstream n A v → flows A u v) as Hu by (intros u; by intros [? _]%elem_of_list_filter).
  assert (∀ a b e, finite a → finite b → finite e → (Rabs (RV a - RV b) <= δ * RV e)%R →
    let a' := foldl nadd a (map (λ u, nmul (q u) (arc_flux A' u v)) (upstream n A v)) in
    let b' := foldl nadd b (map (λ u, nmul (q_of (c u)) (arc_flux A' u v)) (upstream n A v)) in
    finite a' ∧ finite b' ∧ (Rabs (RV a' - RV b') <= δ * RV (foldl nadd e (map (λ u, arc_flux A' u v) (upstream n A v))))%R) as HG.
  2:{ apply HG; [by eexists..|]. rewrite RV_0, Rminus_0_r, Rabs_R0. lra. }
  induction (upstream n A v) as [|u l IH]; intros a b e Fa Fb Fe Hab; [done|]. cbn [map foldl].
  pose proof (flux_app_v u) as [FW _ TW]. pose proof (tame_nonneg _ _ _ TW) as PW.
  destruct (unit_inv _ (Hh u)) as (x & Ex & Fx & Vx & _). destruct (unit_inv _ (Hc u)) as (y & Ey & Fy & Vy & _).
  destruct (q_val (h u)) as [Fq Eq]; [rewrite Ex; by destruct x|]. destruct (q_val (c u)) as [Fq' Eq']; [rewrite Ey; by destruct y|].
  destruct (RV_mul _ _ Fq FW) as [M1 M2]. destruct (RV_mul _ _ Fq' FW) as [M1' M2'].
  destruct (RV_add _ _ Fa M1) as [A1 A2]. destruct (RV_add _ _ Fb M1') as [A1' A2']. destruct (RV_add _ _ Fe FW) as [B1 B2].
  apply IH; try done; [intros w Hw; apply Hu; by right|]. rewrite A2, A2', B2, M2, M2', Eq, Eq'.
  replace (RV a + val (h u) * RV (arc_flux A' u v) - (RV b + val (c u) * RV (arc_flux A' u v)))%R with
    ((RV a - RV b) + (val (h u) - val (c u)) * RV (arc_flux A' u v))%R by ring.
  eapply Rle_trans; [apply Rabs_triang|]. rewrite Rabs_mult, (Rabs_pos_eq (RV (arc_flux A' u v))) by done.
  pose proof (Hδ u (Hu u ltac:(left))) as Hd. assert (Rabs (val (h u) - val (c u)) * RV (arc_flux A' u v) <= δ * RV (arc_flux A' u v))%R by (by apply Rmult_le_compat_r). lra.
Qed.
Lemma own_diff : (0 <= δ)%R → finite (own p' d id v (mix n A' (λ u, q_of (c u)) v)) ∧
  (Rabs (RV (own p' d id v (mix n A' (λ u, q u) v)) - RV (own p' d id v (mix n A' (λ u, q_of (c u)) v))) <= δ * RV T')%R.
Proof.
  intros Pd. destruct mix_diff as (F1 & F2 & Hd). destruct parts_v as (_ & _ & P1 & _ & P2 & ET).
  assert (δ * RV (influx n A' v) <= δ * RV T')%R as HT by (apply Rmult_le_compat_l; lra).
  unfold own. rewrite ex_well_rate. destruct (well_rate d m id v) as [r|] eqn:Er; cbn [fmap option_fmap option_map]; [|split; [done|lra]].
  destruct (rate_app p OR HD Hp d id v r Er) as [Fr _ _]. destruct (RV_add _ _ F1 Fr) as [_ ->]. destruct (RV_add _ _ F2 Fr) as [F ->]. split; [done|].
  replace (_ + _ - _)%R with (RV (mix n A' (λ u, q u) v) - RV (mix n A' (λ u, q_of (c u)) v))%R by ring. lra.
Qed.
End cell.

(** * The diagnostics *)
Section toolbox.
Context (p : @problem b64) (g : cgraph) (f : cvalues) (Hp : valid p) (HP : poses p g f) (HD : @data b64 b64_ok p) (OR : ordinary p).
Context (Hk : Z.of_nat (all_costs p) ≤ 2 ^ 50).
Notation p' := (exactly p).
Notation n := (pb_cells p).
Notation m := (pb_rates p).
Notation src d := (only d (split_rates m)).

Lemma costs_small d v : Z.of_nat (cost d p v) ≤ 2 ^ 50.
Proof. pose proof (cost_le p d v). lia. Qed.
Lemma total_finite d v : nltb (nadd (influx n (flow d p) v) (cell_total d m v)) ninf = true.
Proof.
  change (nltb (total_in p d v) ninf = true). destruct (total_app_cost p OR HD Hp d v (costs_small d v)) as [_ N _].
  destruct (near_inv _ _ _ N) as (b & -> & Fb & Nb & _). change (@ninf b64) with (B2SF (B754_infinity false : bf)).
  cbn [nltb b64]. rewrite SFltb_v by done. apply Rlt_bool_true. rewrite (v_fin b Fb). pose proof (fin_lt b Fb) as H. apply Rabs_def2 in H. cbn -[big]. lra.
Qed.

Section well.
Context (d : direction) (id : cellset_id) (inj : Z → option (@num b64)) (Hinj : ∀ v, inj v = well_rate d m id v).
Notation A := (flow d p).
Context (comps : list (list Z)).
Context (Ho : ordered A (λ v, ∃ r, is_Some (well_rate d m id r) ∧ leads A r v) comps) (Hin : ∀ v, v ∈ concat comps → 0 ≤ v < n).
Context (fuel : nat) (st : fstate) (Hrun : run n A (pb_pv p) (src d) inj fuel comps = Ok st).
Notation I := (λ s : fstate, ∀ u, unit_num b64_laws (s.2 u)).

Lemma sane_b64 : sane b64_laws n A (src d) inj (λ _, True).
Proof. apply (sane_local b64_laws b64_opp_laws p Hp HD d id inj); [intros v _; apply total_finite|done]. Qed.
Lemma keep_I s v : I s → cell_ok n A (src d) inj s.2 v = true ∧ I (upd_cell n A (pb_pv p) (src d) inj s v).
Proof.
  intros Hs. destruct (cell_unit b64_laws n A (src d) inj _ sane_b64 s.2 v ltac:(done) Hs) as [H1 H2]. split; [done|].
  intros u. cbn. destruct (decide (u = v)) as [->|Hne]; [by rewrite fupd_eq|by rewrite fupd_ne].
Qed.
Lemma I_zero : I zero_state.
Proof. intros u. split; [apply (nn0 b64_laws)|apply (ol_01 b64_laws)]. Qed.
Lemma tot_total v : tot n A (src d) inj v = total_in p d v.
Proof. rewrite (tot_eq b64_laws n A (src d) inj _ sane_b64). unfold total_in. by rewrite only_value by apply (va_rates _ Hp). Qed.

(** A computed concentration comes from nearly the same values. *)
Lemma from_before v : v ∈ concat comps → regular A v → ∃ h, (∀ u, unit_num b64_laws (h u)) ∧ st.2 v = cellc n A (src d) inj h v ∧
  ∀ u, flows A u v → (Rabs (val (h u) - val (st.2 u)) <= tol * (1 + eps))%R.
Proof.
  intros (C & HvC & HC)%elem_concat Hreg.
  assert (0 <= tol * (1 + eps))%R as Pd. { pose proof tol_val as (T1 & _). pose proof eps_pos. apply Rmult_le_pos; lra. }
  assert (∀ x y, x = y → (Rabs (val x - val y) <= tol * (1 + eps))%R) as Hsame. { intros x y ->. by rewrite Rminus_eq_0, Rabs_R0. }
  destruct (ordered_split _ _ _ _ _ Ho HC HvC) as (l1 & l2 & E & Hv1 & Hv2 & Hup & _).
  assert (NoDup C) as HnC. { pose proof (oc_nodup _ _ _ Ho) as Hn. rewrite E, concat_app in Hn. cbn [concat] in Hn. apply NoDup_app in Hn as (_ & _ & Hn). by apply NoDup_app in Hn as (Hn & _). }
  assert (∀ w, w ∈ C → w ∈ concat comps) as HCc. { intros w Hw. apply elem_concat. by exists C. }
  pose proof Hrun as HR. rewrite E in HR. unfold SolverRun.run in HR. rewrite foldM_app in HR. apply bind_Ok in HR as (st1 & E1 & HR).
  cbn [foldM] in HR. apply bind_Ok in HR as (st2 & E2 & HR). pose proof (comps_off _ _ _ _ _ _ _ _ _ HR) as Hoff.
  assert (I st1) as I1.
  { destruct (inv_run n A (pb_pv p) (src d) inj l1 I ltac:(intros; by apply keep_I) fuel I_zero) as [H|(s & H & Hs)]; unfold SolverRun.run in H; rewrite E1 in H; [done|].
    injection H as <-. exact Hs. }
  assert (st.2 v = st2.2 v) as Ev by (by destruct (Hoff v Hv2)).
  assert (∀ u, flows A u v → st.2 u = st2.2 u) as Eu. { intros u Hf. destruct (Hoff u); [by eapply Hup|done]. }
  destruct (decide (C = [v])) as [->|Hne].
  - cbn [SolverRun.run_comp] in E2. apply run_cell_inv in E2 as [_ ->]. exists st1.2. split; [done|]. split; [rewrite Ev; cbn; by rewrite fupd_eq|].
    intros u Hf. apply Hsame. rewrite (Eu u Hf). cbn. rewrite fupd_ne; [done|]. intros ->. destruct Hreg as [Hr|(w & Hw & L1 & L2)]; [done|].
    apply Hw. apply elem_of_list_singleton. by apply (oc_strong _ _ _ Ho [v] v w HC HvC).
  - assert (run_loop n A (pb_pv p) (src d) inj fuel C st1 big_delta big_delta = Ok st2) as EL.
    { destruct C as [|a [|b C]]; [done| |exact E2]. exfalso. apply elem_of_list_singleton in HvC as ->. done. }
    destruct (loop_last n A (pb_pv p) (src d) inj comps I ltac:(intros; by apply keep_I) C fuel st1 _ _ st2 HCc I1 EL ltac:(by vm_compute)) as (st0 & dt & dc & ES & Hsm & I0 & _).
    destruct (sweep_at n A (pb_pv p) (src d) inj comps I ltac:(intros; by apply keep_I) C st0 _ _ _ v HnC HCc I0 ES HvC) as (sv & Iv & Hcv & Hu).
    cbn [fst snd] in Hcv, Hu. exists sv.2. split; [done|]. split; [by rewrite Ev|]. intros u Hf. rewrite (Eu u Hf).
    destruct (Hu u) as [->| ->]; [|by apply Hsame]. destruct (decide (u ∈ C)) as [HuC|HuC].
    2:{ apply Hsame. destruct (sweep_off n A (pb_pv p) (src d) inj C C _ _ _ _ ltac:(done) ES u HuC) as [_ He]. by cbn in He. }
    assert (I st2) as I2.
    { destruct (inv_sweep n A (pb_pv p) (src d) inj comps I ltac:(intros; by apply keep_I) C st0 n0 n0 HCc I0) as (r & Er & Ir). rewrite ES in Er. by injection Er as <-. }
    set (good := λ x : @num b64, ∃ z : bf, x = B2SF z ∧ is_nan z = false).
    assert (∀ (s s' : fstate) a w, w ∈ concat comps → I s → I s' → good a → good (nmax a (tracer_change (s.2 w) (s'.2 w))) ∧
      (nltb gs_tracer_tol (nmax a (tracer_change (s.2 w) (s'.2 w))) = false → nltb gs_tracer_tol a = false ∧ nltb gs_tracer_tol (tracer_change (s.2 w) (s'.2 w)) = false)) as HM.
    { intros s s' a w _ Is Is' (z & -> & Nz). destruct (change_ok _ _ (Is w) (Is' w)) as (y & -> & Fy & _).
      assert (is_nan y = false) as Ny by (by destruct y). split; [|by apply max_small].
      unfold nmax, good. destruct (@nltb b64 (B2SF z) (B2SF y)); [exists y|exists z]; (split; [reflexivity|assumption]). }
    assert (good n0) as Hg0. { exists (B754_zero false). split; [apply n0_zero|reflexivity]. }
    destruct (sweep_changes n A (pb_pv p) (src d) inj comps I ltac:(intros; by apply keep_I) good (λ x, nltb gs_tracer_tol x = false) HM
      C st0 n0 n0 (st2, dt, dc) HnC HCc I0 Hg0 ES Hsm) as [_ Hch].
    specialize (Hch u HuC). cbn [fst snd] in Hch. destruct (change_ok _ _ (I0 u) (I2 u)) as (z & Ez & Fz & Hz). rewrite Ez in Hch.
    rewrite Rabs_minus_sym. apply Hz. by apply small_val.
Qed.
End well.

Definition tenth9 : Qc := Q2Qc (1 # 1000000000).
Lemma bound_R k : QR (tenth9 + errors k)%Qc = (/ 1000000000 + INR k * (2 * eps))%R.
Proof.
  unfold errors, tenth9. rewrite QR_add, QR_mul, !QR_Q2Qc, QR_pow2. unfold Q2R, inject_Z. cbn [Qnum Qden]. rewrite Rinv_1, Rmult_1_r, Rmult_1_l, <-INR_IZR_INZ.
  f_equal. f_equal. unfold eps. change (-51) with (1 + -52). rewrite bpow_plus. done.
Qed.
Lemma conc_unit d ev sets sol id v : diagnose d ev g p f sets = Ok (OSol sol) → unit_num b64_laws (value_at (sol_concentration sol id) v).
Proof.
  intros H. destruct (decide (id ∈ map cs_id sets)) as [Hid|Hid].
  2:{ destruct (diagnose_other p g f Hp HP d ev sets sol id H Hid) as [_ E]. unfold value_at. rewrite E. exact (I_zero v). }
  destruct (diagnose_local p g f Hp HP d ev sets sol id H Hid) as (inj & comps & st & Hinj & Ho & Hin & Hrun & _ & _ & Hc).
  unfold value_at. rewrite Hc. destruct (decide (v ∈ concat comps)); [|exact (I_zero v)].
  destruct (inv_run n (flow d p) (pb_pv p) (src d) inj comps (λ s, ∀ u, unit_num b64_laws (s.2 u)) ltac:(intros; by apply (keep_I d id inj Hinj)) (e_fuel ev) I_zero) as [E|(s & E & Hs)];
      rewrite Hrun in E; [done|]. by injection E as <-.
Qed.
Lemma mix_zero k (B : list (@arc exact)) v : (∀ u, finite (arc_flux B u v)) → RV (mix k B (λ _, n0) v) = 0%R.
Proof.
  intros HF. unfold mix. assert (∀ a, finite a → RV a = 0%R → RV (foldl nadd a (map (λ u, nmul n0 (arc_flux B u v)) (upstream k B v))) = 0%R) as HG.
  2:{ apply HG; [by eexists|apply RV_0]. }
  induction (upstream k B v) as [|u l IH]; intros a Fa Ea; [done|]. cbn [map foldl].
  destruct (RV_mul n0 _ ltac:(by eexists) (HF u)) as [F1 E1]. destruct (RV_add _ _ Fa F1) as [F2 E2]. apply IH; [done|]. rewrite E2, E1, Ea, RV_0. lra.
Qed.
Lemma met d ev sets sol id v : diagnose d ev g p f sets = Ok (OSol sol) → id ∈ map cs_id sets → 0 ≤ v < n → regular (flow d p) v →
  met_within (tenth9 + errors (cost d p v)) p' d id (λ u, q_of (value_at (sol_concentration sol id) u)) v.
Proof.
  intros H Hid Hv Hreg. destruct (diagnose_local p g f Hp HP d ev sets sol id H Hid) as (inj & comps & st & Hinj & Ho & Hin & Hrun & _ & _ & Hc).
  assert (∀ u, value_at (sol_concentration sol id) u = st.2 u) as Hval.
  { intros u. unfold value_at. rewrite Hc. destruct (decide (u ∈ concat comps)) as [|Hu]; [done|].
    by destruct (comps_off _ _ _ _ _ _ _ _ _ Hrun u Hu) as [_ ->]. }
  assert (∀ u, u ∉ concat comps → st.2 u = n0) as Hz. { intros u Hu. by destruct (comps_off _ _ _ _ _ _ _ _ _ Hrun u Hu) as [_ ->]. }
  assert (∀ u, unit_num b64_laws (st.2 u)) as HI.
  { destruct (inv_run n (flow d p) (pb_pv p) (src d) inj comps (λ s, ∀ u, unit_num b64_laws (s.2 u)) ltac:(intros; by apply (keep_I d id inj Hinj)) (e_fuel ev) I_zero) as [E|(s & E & Hs)];
      rewrite Hrun in E; [done|]. by injection E as <-. }
  pose proof (total_app_cost p OR HD Hp d v (costs_small d v)) as HT. destruct HT as [FT NT TT]. pose proof (tame_nonneg _ _ _ TT) as PT0.
  set (c := λ u, q_of (value_at (sol_concentration sol id) u)). assert (c v = q_of (st.2 v)) as Ecv by (unfold c; by rewrite Hval).
  assert (mix (pb_cells p') (flow d p') c v = mix n (flow d p') (λ u, q_of (st.2 u)) v) as Em.
  { apply (mix_ext _ _ (λ _, None)). intros u _. unfold c. by rewrite Hval. }
  assert (∃ h, (∀ u, unit_num b64_laws (h u)) ∧ (∀ u, flows (flow d p) u v → (Rabs (val (h u) - val (st.2 u)) <= tol * (1 + eps))%R) ∧
    (Rabs (val (st.2 v) * RV (total_in p' d v) - RV (own p' d id v (mix n (flow d p') (λ u, q_of (h u)) v))) <= INR (cost d p v - 2) * (2 * eps) * RV (total_in p' d v))%R) as (h & Hh & Hδ & Hcell).
  { destruct (decide (v ∈ concat comps)) as [Hvc|Hvc].
    - destruct (from_before d id inj Hinj comps Ho (e_fuel ev) st Hrun v Hvc Hreg) as (h & Hh & Ecell & Hδ). exists h. split; [done|]. split; [done|].
      assert (nltb n0 (total_in p d v) = true) as Pb.
      { apply (support_pos b64_laws b64_opp_laws p Hp HD d v Hv). destruct (proj1 (oc_cover _ _ _ Ho v) Hvc) as (r & Hr & Hl).
        apply rtc_inv_r in Hl as [<-|(u & _ & Hu)]; [left; by exists id|right; by exists u]. }
      assert (0 < RV (total_in p' d v))%R as PT by (by apply (near_gt0 _ _ _ NT)).
      pose proof (cell_ab p OR HD Hp d v (costs_small d v) h Hh id PT) as HC. rewrite Ecell. unfold SolverRun.cellc. rewrite (tot_total d id inj Hinj).
      assert (neqb (total_in p d v) n0 = false) as ->. { apply (pos_ne b64_laws); [|done]. destruct (near_inv _ _ _ NT) as (b & -> & _). apply ok_B2SF. }
      assert (uc n (flow d p) inj h v = own p d id v (mix n (flow d p) h v)) as -> by (unfold uc, own; by rewrite Hinj). exact HC.
    - exists st.2. split; [done|]. split.
      { intros u _. rewrite Rminus_eq_0, Rabs_R0. pose proof tol_val as (T1 & _). pose proof eps_pos. apply Rmult_le_pos; lra. }
      assert (well_rate d m id v = None) as Ew.
      { destruct (well_rate d m id v) as [r|] eqn:Er; [|done]. exfalso. apply Hvc, (oc_cover _ _ _ Ho). exists v. split; [by rewrite Er|apply rtc_refl]. }
      rewrite (Hz v Hvc). unfold own. rewrite ex_well_rate, Ew. cbn [fmap option_fmap option_map].
      assert (RV (mix n (flow d p') (λ u, q_of (st.2 u)) v) = 0%R) as ->.
      { rewrite (mix_ext _ _ (λ _, None) (λ u, q_of (st.2 u)) (λ _, n0) v).
        2:{ intros u Hf. rewrite (Hz u); [reflexivity|]. intros Hu. apply Hvc, (oc_cover _ _ _ Ho). destruct (proj1 (oc_cover _ _ _ Ho u) Hu) as (r & Hr & Hl).
            exists r. split; [done|]. eapply rtc_r; [exact Hl|]. by apply ex_flows. }
        apply mix_zero. intros u. apply (flux_app_v p OR HD d v (costs_small d v)). }
      assert (val (@n0 b64) = 0%R) as -> by (rewrite n0_zero; done). rewrite Rmult_0_l, Rminus_eq_0, Rabs_R0.
      apply Rmult_le_pos; [|done]. pose proof eps_pos. pose proof (pos_INR (cost d p v - 2)). apply Rmult_le_pos; lra. }
  pose proof (own_diff p OR HD Hp d v (costs_small d v) h Hh id st.2 HI _ Hδ) as HX.
  destruct HX as [Fo Hd]. { pose proof tol_val as (T1 & _). pose proof eps_pos. apply Rmult_le_pos; lra. }
  destruct FT as [t Et]. destruct Fo as [o Eo]. destruct (q_val (st.2 v)) as [[x Ex] Vx]. { destruct (unit_inv _ (HI v)) as (b & -> & Fb & _). by destruct b. }
  exists t, (t * x - o)%Qc. split; [exact Et|]. rewrite Ecv, Em, Ex, Et, Eo. split.
  2:{ cbn [nmul nadd exact xmul xadd num]. f_equal. ring. }
  rewrite Ex, RV_Fin in Vx. rewrite <-Vx, Et in Hcell. rewrite Eo, Et in Hd. rewrite !RV_Fin in *. rewrite !QR_le. unfold Qcminus. rewrite !QR_opp, !QR_mul, bound_R, QR_add, QR_mul, QR_opp.
  rewrite Et, RV_Fin in PT0.
  assert (INR (cost d p v) = INR (cost d p v - 2) + 2)%R as Ek. { rewrite cost_eq. change 2%R with (INR 2). rewrite <-plus_INR. f_equal. lia. }
  destruct tol_val as (_ & T2 & _). assert (tol * (1 + eps) * QR t <= (/ 1000000000 + 2 * eps) * QR t)%R as H3 by (apply Rmult_le_compat_r; lra).
  rewrite Ek. apply Rabs_le_inv in Hcell, Hd. pose proof eps_pos as He. assert (0 <= eps * QR t)%R by (apply Rmult_le_pos; lra). split; lra.
Qed.
End toolbox.
