(** The statements about DerivedQuantities in the form used by Props/Derived.v. *)
From Coq Require Import QArith Qcanon.
From Coq.Floats Require Import SpecFloat.
From Verif.Model Require Import Num DerivedQuantities.
From Verif.Spec Require Import DerivedSpec PairSpec.
From Verif.Proofs Require Import Util ExactNum OMapFacts QcLra OrdLaws B64Laws DerivedOrd DerivedExact
  DerivedLorenz DerivedLink DerivedMisc.
Open Scope Z_scope.

Section ramp.
Context {N : Num} (L : ord_laws N).
Theorem curve_unit srt itof ptof pv f :
  sorting srt →
  length itof = length pv → length ptof = length pv →
  Forall (λ x, o_ok N L x) itof → Forall (λ x, o_ok N L x) ptof →
  Forall (λ v, o_ok N L v ∧ nleb n0 v = true ∧ nltb v ninf = true) pv →
  Z.of_nat (length pv) < 2 ^ 31 →
  (∀ i a b, itof !! i = Some a → ptof !! i = Some b → nltb n0 (nadd a b) = true ∧ nltb (nadd a b) ninf = true) →
  ∃ Phi F, fphi_curve srt itof ptof pv f = Ok (Phi, F) ∧
  ∀ X, X = Phi ∨ X = F → length X = S (length pv) ∧
    ((∃ x, last X = Some x ∧ nisnan x = true) ∨ unit_ramp X).
Proof.
  intros Hs E1 E2 Hi Hp Hpv Hn Ht.
  destruct (curve_defined L srt itof ptof pv f) as (Phi & F & E); try done.
  exists Phi, F. split; [done|]. intros X HX.
  destruct (curve_ramp L srt itof ptof pv f Phi F Hs Hi Hp Hpv Hn Ht E X HX) as [HL [(t & Ht1 & Ht2 & Ht3 & Ht4)|H]].
  - split; [done|]. left. eexists. split; [exact Ht1|]. by apply (o_div_nan N L).
  - auto.
Qed.
End ramp.

Theorem curve_exact_ramp srt itof ptof pv f : sorting (N:=exact) srt → fphi_input itof ptof pv f →
  ∃ Phi F, @fphi_curve exact srt (fins itof) (fins ptof) (fins pv) (Fin f) = Ok (fins Phi, fins F) ∧
    length Phi = S (length pv) ∧ length F = S (length pv) ∧
    Phi !! O = Some 0%Qc ∧ F !! O = Some 0%Qc ∧ last Phi = Some 1%Qc ∧ last F = Some 1%Qc ∧
    non_decreasing Phi ∧ non_decreasing F.
Proof.
  intros Hs Hi. destruct (curve_exact srt _ _ _ _ Hs Hi) as (l & Pl & Ol & Ll & Sl & E).
  exists (qcum (vols l)), (qcum (rates l)). split; [done|].
  pose proof (vols_pos l Ol) as Hv. pose proof (rates_pos l Ol) as Hr.
  rewrite !qcum_length. unfold vols at 1, rates at 1. rewrite !fmap_length, Ll.
  split; [done|]. split; [done|]. split; [apply qcum_0|]. split; [apply qcum_0|].
  split; [apply qcum_last; intros E'; rewrite E' in Hv; by apply Qclt_not_eq in Hv|].
  split; [apply qcum_last; intros E'; rewrite E' in Hr; by apply Qclt_not_eq in Hr|].
  split; [apply qcum_up; [|done]|apply qcum_up; [|done]].
  - apply Forall_fmap. apply (co_vol l Ol).
  - by apply rates_nonneg.
Qed.

Theorem curve_exact_concave srt itof ptof pv f Phi F : sorting (N:=exact) srt → fphi_input itof ptof pv f →
  @fphi_curve exact srt (fins itof) (fins ptof) (fins pv) (Fin f) = Ok (fins Phi, fins F) →
  concave Phi F ∧ ∀ k x y, Phi !! k = Some x → F !! k = Some y → (x <= y)%Qc.
Proof.
  intros Hs Hi E'. destruct (curve_exact srt _ _ _ _ Hs Hi) as (l & Pl & Ol & Ll & Sl & E).
  rewrite E in E'.
  assert (fins (qcum (vols l)) = fins Phi ∧ fins (qcum (rates l)) = fins F) as [E1 E2]
    by (by inversion E').
  assert (∀ x y, fins x = fins y → x = y) as Hinj.
  { intros x y Hxy. unfold fins in Hxy. apply (fmap_inj Fin) in Hxy; [done|]. intros ? ? [=]. done. }
  apply Hinj in E1, E2. subst. split; [by apply curve_concave|].
  intros k x y Hx Hy. pose proof (lookup_lt_Some _ _ _ Hx) as Hk. rewrite qcum_length in Hk.
  unfold vols in Hk. rewrite fmap_length in Hk.
  pose proof (F_above l Ol k ltac:(lia)) as HF.
  rewrite qcum_cumf in Hx by (rewrite vols_length; lia). rewrite qcum_cumf in Hy by (rewrite rates_length; lia).
  by injection Hx as <-; injection Hy as <-.
Qed.

Theorem curve_exact_lorenz srt itof ptof pv f g : sorting (N:=exact) srt → fphi_input itof ptof pv f →
  @fphi_curve exact srt (fins itof) (fins ptof) (fins pv) (Fin f) = Ok g →
  ∃ x, lorenz_coefficient g = Ok (Fin x) ∧ (0 <= x)%Qc ∧ (x < 1)%Qc ∧
    (x = 0%Qc ↔ ∃ t, ∀ i a b v, itof !! i = Some a → ptof !! i = Some b → pv !! i = Some v →
                       (0 < v)%Qc → kept pv f v → (a + b)%Qc = t).
Proof.
  intros Hs Hi E'. destruct (curve_exact srt _ _ _ _ Hs Hi) as (l & Pl & Ol & Ll & Sl & E).
  rewrite E in E'. injection E' as <-. destruct Hi as [I1 I2 I3 I4 I5 I6].
  destruct (lorenz_range l Ol ltac:(lia)) as (x & Hx & H0 & H1 & H2).
  exists x. split; [done|]. split; [done|]. split; [done|]. rewrite H2. by apply same_time_input.
Qed.

Theorem curve_exact_sweep srt itof ptof pv f g : sorting (N:=exact) srt → fphi_input itof ptof pv f →
  @fphi_curve exact srt (fins itof) (fins ptof) (fins pv) (Fin f) = Ok g →
  ∃ tD Ev, sweep_efficiency g = Ok (fins tD, fins Ev) ∧
    length tD = length Ev ∧ tD !! O = Some 0%Qc ∧ Ev !! O = Some 0%Qc ∧
    non_decreasing tD ∧ non_decreasing Ev ∧ last Ev = Some 1%Qc ∧
    Forall (λ x, (0 <= x)%Qc ∧ (x <= 1)%Qc) Ev.
Proof.
  intros Hs Hi E'. destruct (curve_exact srt _ _ _ _ Hs Hi) as (l & Pl & Ol & Ll & Sl & E).
  rewrite E in E'. injection E' as <-. apply (sweep_spec l Ol). destruct Hi. lia.
Qed.

(** ** Pair volumes *)
Theorem volume_value inj prod pv i p f g :
  stores (sol_concentration inj i) f → stores (sol_concentration prod p) g →
  (∀ c, is_Some (f c) → is_Some (g c) → 0 <= c < Z.of_nat (length pv)) →
  @pair_volume exact inj prod (fins pv) i p = Ok (Fin (cell_sum pv (λ c, (at_cell f c * at_cell g c)%Qc))).
Proof. intros Hi Hp Hr. exact (vol_value _ _ f g pv Hi Hp Hr). Qed.

Theorem volume_ub inj prod pv i p f g c :
  stores (sol_concentration inj i) f → stores (sol_concentration prod p) g →
  is_Some (f c) → is_Some (g c) → ¬ (0 <= c < Z.of_nat (length pv)) →
  @pair_volume exact inj prod (fins pv) i p = UB.
Proof. intros Hi Hp. exact (vol_ub _ _ f g pv Hi Hp c). Qed.

Theorem volume_range inj prod pv i p f g :
  stores (sol_concentration inj i) f → stores (sol_concentration prod p) g →
  (∀ c, is_Some (f c) → is_Some (g c) → 0 <= c < Z.of_nat (length pv)) →
  Forall (λ v, (0 <= v)%Qc) pv → unit_field f → unit_field g →
  ∃ x, @pair_volume exact inj prod (fins pv) i p = Ok (Fin x) ∧ (0 <= x)%Qc ∧ (x <= qsum pv)%Qc.
Proof.
  intros Hi Hp Hr Hpv Hf Hg. eexists. split; [by apply (volume_value _ _ _ _ _ f g)|].
  apply cell_sum_range; [done|]. intros c. unfold at_cell.
  destruct (f c) as [a|] eqn:Ea, (g c) as [b|] eqn:Eb; cbn; try (split; qclra).
  destruct (Hf _ _ Ea), (Hg _ _ Eb). split; qcnra.
Qed.

Theorem volume_pairs inj prod pv (Is Ps : list cellset_id) (f g : cellset_id → Z → option Qc) :
  (∀ i, i ∈ Is → stores (sol_concentration inj i) (f i)) →
  (∀ p, p ∈ Ps → stores (sol_concentration prod p) (g p)) →
  (∀ i p c, i ∈ Is → p ∈ Ps → is_Some (f i c) → is_Some (g p c) → 0 <= c < Z.of_nat (length pv)) →
  ∃ V : cellset_id → cellset_id → Qc,
    (∀ i p, i ∈ Is → p ∈ Ps → @pair_volume exact inj prod (fins pv) i p = Ok (Fin (V i p))) ∧
    qsum ((λ i, qsum ((λ p, V i p) <$> Ps)) <$> Is) =
      cell_sum pv (λ c, (qsum ((λ i, at_cell (f i) c) <$> Is) * qsum ((λ p, at_cell (g p) c) <$> Ps))%Qc).
Proof.
  intros Hi Hp Hr. exists (λ i p, cell_sum pv (λ c, (at_cell (f i) c * at_cell (g p) c)%Qc)). split.
  - intros i p Hi' Hp'. apply volume_value; eauto.
  - apply (cell_sum_pairs pv (λ i, at_cell (f i)) (λ p, at_cell (g p))).
Qed.

(** The cells where both sums are one contribute their pore volume; the others
    nothing if one of the sums vanishes there. *)
Theorem volume_total inj prod pv (Is Ps : list cellset_id) (f g : cellset_id → Z → option Qc)
    (C : Z → Prop) `{∀ c, Decision (C c)} :
  (∀ i, i ∈ Is → stores (sol_concentration inj i) (f i)) →
  (∀ p, p ∈ Ps → stores (sol_concentration prod p) (g p)) →
  (∀ i p c, i ∈ Is → p ∈ Ps → is_Some (f i c) → is_Some (g p c) → 0 <= c < Z.of_nat (length pv)) →
  (∀ c, 0 <= c < Z.of_nat (length pv) →
     if decide (C c)
     then qsum ((λ i, at_cell (f i) c) <$> Is) = 1%Qc ∧ qsum ((λ p, at_cell (g p) c) <$> Ps) = 1%Qc
     else qsum ((λ i, at_cell (f i) c) <$> Is) = 0%Qc ∨ qsum ((λ p, at_cell (g p) c) <$> Ps) = 0%Qc) →
  ∃ V : cellset_id → cellset_id → Qc,
    (∀ i p, i ∈ Is → p ∈ Ps → @pair_volume exact inj prod (fins pv) i p = Ok (Fin (V i p))) ∧
    qsum ((λ i, qsum ((λ p, V i p) <$> Ps)) <$> Is) =
      cell_sum pv (λ c, if decide (C c) then 1%Qc else 0%Qc).
Proof.
  intros Hi Hp Hr HC. destruct (volume_pairs inj prod pv Is Ps f g Hi Hp Hr) as (V & HV & E).
  exists V. split; [done|]. rewrite E. apply cell_sum_ext. intros c Hc. specialize (HC c Hc).
  destruct (decide (C c)) as [D|D].
  - destruct HC as [-> ->]. ring.
  - destruct HC as [-> | ->]; ring.
Qed.

(** ** Pair fluxes *)
Theorem fluxes_value inj prod i p inflow (ri rp : list (Z * Qc)) f g :
  stores (sol_concentration inj i) f → stores (sol_concentration prod p) g → om_wf inflow →
  (i, prod_map id Fin <$> ri) ∈ inflow → (p, prod_map id Fin <$> rp) ∈ inflow →
  @pair_flux exact inj prod i p inflow =
    Ok (Fin (qsum ((λ kq, (kq.2 * at_cell g kq.1)%Qc) <$> filter (λ kq, (0 < kq.2)%Qc) ri)),
        Fin (qsum ((λ kq, (kq.2 * at_cell f kq.1)%Qc) <$> filter (λ kq, (kq.2 < 0)%Qc) rp))).
Proof.
  intros Hf Hg Hwf Hi Hp. unfold pair_flux.
  apply (om_find_elem _ _ _ Hwf) in Hi, Hp. rewrite Hi, Hp.
  rewrite (flux_value _ _ Hg), (flux_value _ _ Hf). f_equal. f_equal; f_equal.
  - clear. induction ri as [|[k q] l IH]; [done|]. rewrite fmap_cons, qsum_cons, filter_cons. cbn [fst snd].
    rewrite IH. unfold fterm at 1. cbn [fst snd]. destruct (decide (0 < q)%Qc) as [Hq|Hq].
    + rewrite (proj2 (Qc_ltb_true _ _) Hq). rewrite fmap_cons, qsum_cons. done.
    + rewrite (proj2 (Qc_ltb_false _ _)) by (by apply Qcnot_lt_le). cbn. ring.
  - clear. induction rp as [|[k q] l IH]; [done|]. rewrite fmap_cons, qsum_cons, filter_cons. cbn [fst snd].
    rewrite IH. unfold fterm at 1. cbn [fst snd]. destruct (decide (q < 0)%Qc) as [Hq|Hq].
    + rewrite (proj2 (Qc_ltb_false _ _)) by (by apply Qclt_le_weak). rewrite fmap_cons, qsum_cons. done.
    + destruct (Qc_ltb 0 q) eqn:E; cbn; [ring|]. apply Qc_ltb_false in E.
      assert (q = 0%Qc) as ->. { apply Qcle_antisym; [done|]. by apply Qcnot_lt_le. } ring.
Qed.

Theorem fluxes_sign inj prod i p inflow (ri rp : list (Z * Qc)) f g :
  stores (sol_concentration inj i) f → stores (sol_concentration prod p) g → om_wf inflow →
  unit_field f → unit_field g →
  (i, prod_map id Fin <$> ri) ∈ inflow → (p, prod_map id Fin <$> rp) ∈ inflow →
  ∃ x y, @pair_flux exact inj prod i p inflow = Ok (Fin x, Fin y) ∧ (0 <= x)%Qc ∧ (y <= 0)%Qc.
Proof.
  intros Hf Hg Hwf Uf Ug Hi Hp. unfold pair_flux.
  apply (om_find_elem _ _ _ Hwf) in Hi, Hp. rewrite Hi, Hp.
  rewrite (flux_value _ _ Hg), (flux_value _ _ Hf).
  eexists _, _. split; [done|]. split; [by apply flux_nonneg|by apply flux_nonpos].
Qed.
