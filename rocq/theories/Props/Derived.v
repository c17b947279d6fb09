(** Properties C42-C47 and C49-C51: opm/flowdiagnostics/DerivedQuantities.cpp. *)
From Coq Require Import String QArith Qcanon.
From Coq.Floats Require Import SpecFloat.

From Verif.Model Require Import Num DerivedQuantities.
From Verif.Spec Require Import DerivedSpec PairSpec.
From Verif.Proofs Require Import Util ExactNum OMapFacts QcLra OrdLaws B64Laws DerivedOrd DerivedExact
  DerivedLorenz DerivedLink DerivedMisc DerivedTop.
Open Scope Z_scope.

(** [srt] is whatever std::sort does: any function that returns a sorted
    permutation of a list without NaN.  There are such functions: *)
Theorem sorting_exists : @sorting exact insertion_sort ∧ @sorting b64 insertion_sort.
Proof. exact (conj exact_insertion b64_insertion). Qed.

(** ** C42: both coordinates run monotonically from 0 to 1 *)
Theorem C42_fphi_ramp srt itof ptof pv f : sorting (N:=exact) srt → fphi_input itof ptof pv f →
  ∃ Phi F, @fphi_curve exact srt (fins itof) (fins ptof) (fins pv) (Fin f) = Ok (fins Phi, fins F) ∧
    length Phi = S (length pv) ∧ length F = S (length pv) ∧
    Phi !! O = Some 0%Qc ∧ F !! O = Some 0%Qc ∧ last Phi = Some 1%Qc ∧ last F = Some 1%Qc ∧
    non_decreasing Phi ∧ non_decreasing F.
Proof. exact (curve_exact_ramp srt itof ptof pv f). Qed.

(** IEEE doubles: the same, unless a total overflows or is zero, in which case the
    last coordinate is NaN. *)
Theorem C42_fphi_ramp_b64 srt (itof ptof pv : list (@num b64)) f :
  sorting srt → length itof = length pv → length ptof = length pv →
  Forall (λ x : @num b64, b64_ok x) itof → Forall (λ x : @num b64, b64_ok x) ptof →
  Forall (λ v : @num b64, b64_ok v ∧ nleb n0 v = true ∧ nltb v ninf = true) pv →
  Z.of_nat (length pv) < 2 ^ 31 →
  (∀ i a b, itof !! i = Some a → ptof !! i = Some b →
     nltb n0 (nadd a b) = true ∧ nltb (nadd a b) ninf = true) →
  ∃ Phi F, fphi_curve srt itof ptof pv f = Ok (Phi, F) ∧
  ∀ X, X = Phi ∨ X = F → length X = S (length pv) ∧
    ((∃ x, last X = Some x ∧ nisnan x = true) ∨ unit_ramp X).
Proof. exact (curve_unit b64_laws srt itof ptof pv f). Qed.

(** Without positive travel times the ordinates may all be NaN, and the curve
    of no cells is a single NaN point. *)
Theorem C42_zero_time_refuted : ∃ pv : list (@num exact), ∃ Phi F,
  @fphi_curve exact insertion_sort [Fin 0; Fin 1]%Qc [Fin 0; Fin 1]%Qc pv (Fin 1) = Ok (Phi, F) ∧
  Forall (λ v, nltb n0 v = true) pv ∧ F = [Fin 0%Qc; NaN; NaN] ∧
  @fphi_curve exact insertion_sort [] [] [] (Fin 1) = Ok ([NaN], [NaN]).
Proof. exists [Fin 1%Qc; Fin 1%Qc]. eexists _, _. split; [reflexivity|]. split; [repeat constructor|]. split; reflexivity. Qed.

(** ** C43: concave and on or above the diagonal *)
Theorem C43_fphi_concave srt itof ptof pv f Phi F :
  sorting (N:=exact) srt → fphi_input itof ptof pv f →
  @fphi_curve exact srt (fins itof) (fins ptof) (fins pv) (Fin f) = Ok (fins Phi, fins F) →
  concave Phi F ∧ ∀ k x y, Phi !! k = Some x → F !! k = Some y → (x <= y)%Qc.
Proof. exact (curve_exact_concave srt itof ptof pv f Phi F). Qed.

(** ** C44: the Lorenz coefficient *)
Theorem C44_lorenz_range srt itof ptof pv f g :
  sorting (N:=exact) srt → fphi_input itof ptof pv f →
  @fphi_curve exact srt (fins itof) (fins ptof) (fins pv) (Fin f) = Ok g →
  ∃ x, lorenz_coefficient g = Ok (Fin x) ∧ (0 <= x)%Qc ∧ (x < 1)%Qc ∧
    (x = 0%Qc ↔ ∃ t, ∀ i a b v, itof !! i = Some a → ptof !! i = Some b → pv !! i = Some v →
                       (0 < v)%Qc → kept pv f v → (a + b)%Qc = t).
Proof. exact (curve_exact_lorenz srt itof ptof pv f g). Qed.

(** The empty pair of vectors, which is no computed curve, gives -1. *)
Theorem C44_empty_graph : ∃ x, @lorenz_coefficient exact ([], []) = Ok (Fin x) ∧ x = (-(1))%Qc.
Proof. eexists. split; [reflexivity|]. by apply Qc_is_canon. Qed.

(** ** C45: sweep efficiency *)
Theorem C45_sweep srt itof ptof pv f g :
  sorting (N:=exact) srt → fphi_input itof ptof pv f →
  @fphi_curve exact srt (fins itof) (fins ptof) (fins pv) (Fin f) = Ok g →
  ∃ tD Ev, sweep_efficiency g = Ok (fins tD, fins Ev) ∧
    length tD = length Ev ∧ tD !! O = Some 0%Qc ∧ Ev !! O = Some 0%Qc ∧
    non_decreasing tD ∧ non_decreasing Ev ∧ last Ev = Some 1%Qc ∧
    Forall (λ x, (0 <= x)%Qc ∧ (x <= 1)%Qc) Ev.
Proof. exact (curve_exact_sweep srt itof ptof pv f g). Qed.

(** ** C46: pair volumes *)
Theorem C46_volume_value inj prod pv i p f g :
  stores (sol_concentration inj i) f → stores (sol_concentration prod p) g →
  (∀ c, is_Some (f c) → is_Some (g c) → 0 <= c < Z.of_nat (length pv)) →
  @pair_volume exact inj prod (fins pv) i p = Ok (Fin (cell_sum pv (λ c, (at_cell f c * at_cell g c)%Qc))).
Proof. exact (volume_value inj prod pv i p f g). Qed.

(** The range condition is necessary. *)
Theorem C46_volume_out_of_range inj prod pv i p f g c :
  stores (sol_concentration inj i) f → stores (sol_concentration prod p) g →
  is_Some (f c) → is_Some (g c) → ¬ (0 <= c < Z.of_nat (length pv)) →
  @pair_volume exact inj prod (fins pv) i p = UB.
Proof. exact (volume_ub inj prod pv i p f g c). Qed.

Theorem C46_volume_range inj prod pv i p f g :
  stores (sol_concentration inj i) f → stores (sol_concentration prod p) g →
  (∀ c, is_Some (f c) → is_Some (g c) → 0 <= c < Z.of_nat (length pv)) →
  Forall (λ v, (0 <= v)%Qc) pv → unit_field f → unit_field g →
  ∃ x, @pair_volume exact inj prod (fins pv) i p = Ok (Fin x) ∧ (0 <= x)%Qc ∧ (x <= qsum pv)%Qc.
Proof. exact (volume_range inj prod pv i p f g). Qed.

(** The volumes of all pairs add up to the pore volume weighted by both sums of
    concentrations ... *)
Theorem C46_volume_pairs inj prod pv (Is Ps : list cellset_id) (f g : cellset_id → Z → option Qc) :
  (∀ i, i ∈ Is → stores (sol_concentration inj i) (f i)) →
  (∀ p, p ∈ Ps → stores (sol_concentration prod p) (g p)) →
  (∀ i p c, i ∈ Is → p ∈ Ps → is_Some (f i c) → is_Some (g p c) → 0 <= c < Z.of_nat (length pv)) →
  ∃ V : cellset_id → cellset_id → Qc,
    (∀ i p, i ∈ Is → p ∈ Ps → @pair_volume exact inj prod (fins pv) i p = Ok (Fin (V i p))) ∧
    qsum ((λ i, qsum ((λ p, V i p) <$> Ps)) <$> Is) =
      cell_sum pv (λ c, (qsum ((λ i, at_cell (f i) c) <$> Is) * qsum ((λ p, at_cell (g p) c) <$> Ps))%Qc).
Proof. exact (volume_pairs inj prod pv Is Ps f g). Qed.

(** ... so if both sums are one in the cells [C] and one of them vanishes
    elsewhere, they add up to the pore volume of [C]. *)
Theorem C46_volume_total inj prod pv (Is Ps : list cellset_id) (f g : cellset_id → Z → option Qc)
    (C : Z → Prop) `{∀ c, Decision (C c)} :
  (∀ i, i ∈ Is → stores (sol_concentration inj i) (f i)) →
  (∀ p, p ∈ Ps → stores (sol_concentration prod p) (g p)) →
  (∀ i p c, i ∈ Is → p ∈ Ps → is_Some (f i c) → is_Some (g p c) → 0 <= c < Z.of_nat (length pv)) →
  (∀ c, 0 <= c < Z.of_nat (length pv) →
     if decide (C c)
     then qsum ((λ i, at_cell (f i) c) <$> Is) = 1%Qc ∧ qsum ((λ p, at_cell (g p) c) <$> Ps) = 1%Qc
     else qsum ((λ i, at_cell (f i) c) <$> Is) = 0%Qc ∨ qsum ((λ p, at_cell (g p) c) <$> Ps) = 0%Qc) →
  ∃ V : cellset_id → cellset_id → Qc,
    (∀ i p, i ∈ Is → p ∈ Ps → @pair_volume exact inj prod (fins pv) i p = Ok (Fin (V i p))) ∧
    qsum ((λ i, qsum ((λ p, V i p) <$> Ps)) <$> Is) =
      cell_sum pv (λ c, if decide (C c) then 1%Qc else 0%Qc).
Proof. exact (volume_total inj prod pv Is Ps f g C). Qed.

(** ** C47: pair fluxes *)
(** [om_wf]: the rate table is a std::map, i.e. sorted by id without duplicates. *)
Theorem C47_flux_errors {N : Num} inj prod i p inflow : om_wf inflow →
  pair_flux inj prod i p inflow = Throw RuntimeError ↔ (i ∉ inflow.*1 ∨ p ∉ inflow.*1).
Proof. exact (flux_errors inj prod i p inflow). Qed.

Theorem C47_flux_value inj prod i p inflow (ri rp : list (Z * Qc)) f g :
  stores (sol_concentration inj i) f → stores (sol_concentration prod p) g → om_wf inflow →
  (i, prod_map id Fin <$> ri) ∈ inflow → (p, prod_map id Fin <$> rp) ∈ inflow →
  @pair_flux exact inj prod i p inflow =
    Ok (Fin (qsum ((λ kq, (kq.2 * at_cell g kq.1)%Qc) <$> filter (λ kq, (0 < kq.2)%Qc) ri)),
        Fin (qsum ((λ kq, (kq.2 * at_cell f kq.1)%Qc) <$> filter (λ kq, (kq.2 < 0)%Qc) rp))).
Proof. exact (fluxes_value inj prod i p inflow ri rp f g). Qed.

Theorem C47_flux_sign inj prod i p inflow (ri rp : list (Z * Qc)) f g :
  stores (sol_concentration inj i) f → stores (sol_concentration prod p) g → om_wf inflow →
  unit_field f → unit_field g →
  (i, prod_map id Fin <$> ri) ∈ inflow → (p, prod_map id Fin <$> rp) ∈ inflow →
  ∃ x y, @pair_flux exact inj prod i p inflow = Ok (Fin x, Fin y) ∧ (0 <= x)%Qc ∧ (y <= 0)%Qc.
Proof. exact (fluxes_sign inj prod i p inflow ri rp f g). Qed.

(** ** C49: independence of the cell numbering *)
(** All inputs, including infinities and NaN; also the sorting algorithm does not
    matter. *)
Theorem C49_fphi_permutation srt srt' (itof ptof pv itof' ptof' pv' : list (@num exact)) f :
  sorting srt → sorting srt' →
  length itof = length pv → length ptof = length pv → length itof' = length pv' → length ptof' = length pv' →
  Z.of_nat (length pv) < 2 ^ 31 →
  zip (zip itof ptof) pv ≡ₚ zip (zip itof' ptof') pv' →
  fphi_curve srt itof ptof pv f = fphi_curve srt' itof' ptof' pv' f.
Proof. exact (curve_permutation srt srt' itof ptof pv itof' ptof' pv' f). Qed.

(** ** C50: cells above the pore-volume fraction are ignored *)
(** For travel times below 1e100, the travel time given to ignored cells. *)
Theorem C50_cutoff_partial srt itof ptof pv f : sorting (N:=exact) srt → fphi_input itof ptof pv f →
  (∀ i a b v, itof !! i = Some a → ptof !! i = Some b → pv !! i = Some v →
     kept pv f v → (a + b < big100)%Qc) →
  let z := survivors itof ptof pv f in let m := (length pv - length z)%nat in
  ∃ Phi F, @fphi_curve exact srt (fins z.*1.*1) (fins z.*1.*2) (fins z.*2) (Fin 1) = Ok (fins Phi, fins F) ∧
    @fphi_curve exact srt (fins itof) (fins ptof) (fins pv) (Fin f) =
      Ok (fins (Phi ++ replicate m 1%Qc), fins (F ++ replicate m 1%Qc)).
Proof. exact (curve_cutoff srt itof ptof pv f). Qed.

Definition q (n : Z) : Qc := Q2Qc (inject_Z n).
Definition late_itof : list Qc := [q 1; q (2 * 10 ^ 100); q 1].
Definition late_ptof : list Qc := [q 0; q 0; q 0].
Definition late_pv : list Qc := [q 1; q 1; q 8].
Definition late_f : Qc := Q2Qc (1 # 2).

Lemma late_input : fphi_input late_itof late_ptof late_pv late_f.
Proof.
  split; try done.
  - repeat constructor; done.
  - intros i a b v Ha Hb Hv _. do 3 (destruct i as [|i]; [injection Ha as <-; injection Hb as <-; done|]). done.
  - exists (q 1). split; [left|]. done.
Qed.

Definition nth_abscissa (r : res (@graph exact)) (i : nat) : option Q :=
  match r with Ok g => match g.1 !! i with Some (Fin x) => Some (this x) | _ => None end | _ => None end.

(** Beyond that the repeated point is not the end point: the statement without
    the bound is false. *)
Theorem C50_cutoff_refuted : ∃ srt itof ptof pv f, sorting (N:=exact) srt ∧ fphi_input itof ptof pv f ∧
  let z := survivors itof ptof pv f in let m := (length pv - length z)%nat in
  ¬ ∃ Phi F, @fphi_curve exact srt (fins z.*1.*1) (fins z.*1.*2) (fins z.*2) (Fin 1) = Ok (fins Phi, fins F) ∧
    @fphi_curve exact srt (fins itof) (fins ptof) (fins pv) (Fin f) =
      Ok (fins (Phi ++ replicate m 1%Qc), fins (F ++ replicate m 1%Qc)).
Proof.
  exists insertion_sort, late_itof, late_ptof, late_pv, late_f.
  split; [apply exact_insertion|]. split; [apply late_input|]. cbv zeta. intros (Phi & F & E1 & E2).
  apply (f_equal (λ r, nth_abscissa r 2)) in E1, E2. vm_compute in E1.
  match type of E2 with ?x = _ => let y := eval vm_compute in x in change (y = nth_abscissa
    (Ok (fins (Phi ++ replicate (length late_pv - length (survivors late_itof late_ptof late_pv late_f)) 1%Qc),
         fins (F ++ replicate (length late_pv - length (survivors late_itof late_ptof late_pv late_f)) 1%Qc))) 2) in E2 end.
  unfold nth_abscissa in E2. cbn [fst] in E2. unfold fins in E2. rewrite list_lookup_fmap in E2.
  destruct Phi as [|x0 [|x1 [|x2 Phi]]]; try done. cbn in E1, E2. destruct x2 as [x2 Hx]. cbn in E2. congruence.
Qed.

(** For all travel times: the curve of the surviving cells, with the point
    reached by the survivors below 1e100 repeated once for every ignored cell. *)
Theorem C50_cutoff_exactly srt itof ptof pv f : sorting (N:=exact) srt → fphi_input itof ptof pv f →
  let z := survivors itof ptof pv f in let m := (length pv - length z)%nat in
  let e := length (filter (λ x : Qc * Qc * Qc, (x.1.1 + x.1.2 < big100)%Qc) z) in
  ∃ Phi F, @fphi_curve exact srt (fins z.*1.*1) (fins z.*1.*2) (fins z.*2) (Fin 1) = Ok (fins Phi, fins F) ∧
    @fphi_curve exact srt (fins itof) (fins ptof) (fins pv) (Fin f) =
      Ok (fins (stutter e m Phi), fins (stutter e m F)).
Proof. exact (curve_cutoff_exactly srt itof ptof pv f). Qed.

(** In the case above one survivor is below 1e100 and one cell is ignored. *)
Example C50_late : let z := survivors late_itof late_ptof late_pv late_f in
  length z = 2%nat ∧ length (filter (λ x : Qc * Qc * Qc, (x.1.1 + x.1.2 < big100)%Qc) z) = 1%nat.
Proof. vm_compute. done. Qed.

(** With fraction 1 nothing is ignored: the result is the one obtained with an
    infinite fraction, or any fraction that cuts nothing (exact and IEEE). *)
Theorem C50_fraction_one srt (itof ptof pv : list (@num exact)) f :
  Forall (λ v, nleb n0 v = true) pv →
  (∀ v, v ∈ pv → nltb (nmul f (accumulate pv)) v = false) →
  fphi_curve srt itof ptof pv n1 = fphi_curve srt itof ptof pv f.
Proof.
  exact (λ H, fraction_one exact_laws srt itof ptof pv f (Forall_impl _ _ _ H (λ v Hv, conj I Hv))).
Qed.

Theorem C50_fraction_one_b64 srt (itof ptof pv : list (@num b64)) f :
  Forall (λ v : @num b64, b64_ok v ∧ nleb n0 v = true) pv →
  (∀ v, v ∈ pv → nltb (nmul f (accumulate pv)) v = false) →
  fphi_curve srt itof ptof pv n1 = fphi_curve srt itof ptof pv f.
Proof. exact (fraction_one b64_laws srt itof ptof pv f). Qed.

(** ** C51: sizes *)
Theorem C51_fphi_sizes {N : Num} srt itof ptof pv f :
  fphi_curve srt itof ptof pv f = Throw RuntimeError ↔
  (length itof ≠ length pv ∨ length ptof ≠ length pv).
Proof. exact (fphi_sizes srt itof ptof pv f). Qed.

Theorem C51_lorenz_sizes {N : Num} (g : graph) :
  lorenz_coefficient g = Throw RuntimeError ↔ length g.2 ≠ length g.1.
Proof. exact (lorenz_sizes g). Qed.

Theorem C51_sweep_sizes {N : Num} (g : graph) :
  sweep_efficiency g = Throw RuntimeError ↔ length g.2 ≠ length g.1.
Proof. exact (sweep_sizes g). Qed.

(** ** Concrete cases *)
Example C42_ex : nth_abscissa
  (@fphi_curve exact insertion_sort (fins late_itof) (fins late_ptof) (fins late_pv) (Fin late_f)) 2 = Some (1 # 2)%Q.
Proof. vm_compute. reflexivity. Qed.

(** Fraction 1/2 ignores the third cell. *)
Example C50_ex : fphi_input [q 1; q 2; q 1] late_ptof late_pv late_f ∧
  (∀ i a b v, [q 1; q 2; q 1] !! i = Some a → late_ptof !! i = Some b → late_pv !! i = Some v →
     kept late_pv late_f v → (a + b < big100)%Qc) ∧
  length (survivors [q 1; q 2; q 1] late_ptof late_pv late_f) = 2%nat.
Proof.
  split; [split; try done|split; [|done]].
  - repeat constructor; done.
  - intros i a b v Ha Hb Hv _. do 3 (destruct i as [|i]; [injection Ha as <-; injection Hb as <-; done|]). done.
  - exists (q 1). split; [left|]. done.
  - intros i a b v Ha Hb Hv _. do 3 (destruct i as [|i]; [injection Ha as <-; injection Hb as <-; done|]). done.
Qed.

Definition dbl (l : list Z) : list (@num b64) := map (@nofZ b64) l.
(** Times 2, 4, 8 and volumes 3, 1, 4 in IEEE arithmetic: F = 0, 1.5, 1.75, 2.25
    over 2.25. *)
Example C42_ex_b64 : match @fphi_curve b64 insertion_sort (dbl [1; 2; 5]) (dbl [1; 2; 3]) (dbl [3; 1; 4]) n1 with
  | Ok (Phi, F) => bool_decide (length F = 4%nat) &&
      forallb (fun p => neqb p.1 p.2) (zip Phi (map (fun x => ndiv x (nofZ 8)) (dbl [0; 3; 4; 8]))) &&
      forallb (fun p => neqb p.1 p.2) (zip F (map (fun x => ndiv x (nofZ 9)) (dbl [0; 6; 7; 9])))
  | _ => false end = true.
Proof. vm_compute. reflexivity. Qed.

Definition ex_sol (m : list (Z * Qc)) : @solution exact :=
  sol_assign_conc sol_new "W"%string (prod_map id Fin <$> m).
Definition ex_f : Z → option Qc := λ c, if decide (c = 0) then Some (q 1) else
  if decide (c = 2) then Some (Q2Qc (1 # 2)) else None.
Example ex_stores : stores (sol_concentration (ex_sol [(0, q 1); (2, Q2Qc (1 # 2))]) "W"%string) ex_f.
Proof.
  change (sol_concentration _ _) with [(0, Fin (q 1)); (2, Fin (Q2Qc (1 # 2)))] at 1.
  split; [repeat constructor; lia|]. intros c x. unfold ex_f. rewrite !elem_of_cons, elem_of_nil. split.
  - intros [[= -> ->]|[[= -> ->]|[]]]; cbn; eauto.
  - intros (q0 & Hq & ->). repeat case_decide; simplify_eq; auto.
Qed.
Example ex_unit : unit_field ex_f.
Proof. intros c x. unfold ex_f. repeat case_decide; intros [= <-]; done. Qed.
Example C46_ex : match @pair_volume exact (ex_sol [(0, q 1); (2, Q2Qc (1 # 2))])
    (ex_sol [(1, q 1); (2, Q2Qc (1 # 3))]) (fins [q 5; q 7; q 12]) "W"%string "W"%string with
  | Ok (Fin x) => this x | _ => 0%Q end = 2%Q.
Proof. vm_compute. reflexivity. Qed.
Example C47_ex : match @pair_flux exact (ex_sol [(0, q 1); (2, Q2Qc (1 # 2))]) (ex_sol [(0, Q2Qc (1 # 3)); (2, q 1)])
    "W"%string "W"%string [("W"%string, prod_map id Fin <$> [(0, q 6); (2, (- q 4)%Qc)])] with
  | Ok (Fin x, Fin y) => (this x, this y) | _ => (0, 0)%Q end = (2, -2)%Q.
Proof. vm_compute. reflexivity. Qed.

Print Assumptions sorting_exists.
Print Assumptions C42_fphi_ramp.
Print Assumptions C42_fphi_ramp_b64.
Print Assumptions C42_zero_time_refuted.
Print Assumptions C43_fphi_concave.
Print Assumptions C44_lorenz_range.
Print Assumptions C44_empty_graph.
Print Assumptions C45_sweep.
Print Assumptions C46_volume_value.
Print Assumptions C46_volume_out_of_range.
Print Assumptions C46_volume_range.
Print Assumptions C46_volume_pairs.
Print Assumptions C46_volume_total.
Print Assumptions C47_flux_errors.
Print Assumptions C47_flux_value.
Print Assumptions C47_flux_sign.
Print Assumptions C49_fphi_permutation.
Print Assumptions C50_cutoff_partial.
Print Assumptions C50_cutoff_refuted.
Print Assumptions C50_cutoff_exactly.
Print Assumptions C50_fraction_one.
Print Assumptions C50_fraction_one_b64.
Print Assumptions C51_fphi_sizes.
Print Assumptions C51_lorenz_sizes.
Print Assumptions C51_sweep_sizes.
