(** Properties C66-C68: closed forms of lorenzCoefficient and sweepEfficiency
    in opm/flowdiagnostics/DerivedQuantities.cpp. *)
From Coq Require Import String QArith Qcanon Lqa.
From Verif.Model Require Import Num DerivedQuantities.
From Verif.Spec Require Import DerivedSpec GiniSpec.
From Verif.Proofs Require Import Util ExactNum QcLra OrdLaws DerivedOrd DerivedMisc Gini.
From Verif.Props Require Import Derived.
Open Scope Z_scope.

(** ** C66: the Lorenz coefficient is a mean difference *)
(** Of the frequencies 1/t, weighted by volume, over all pairs of cells, relative
    to twice the mean: the Gini coefficient of the frequencies. *)
Theorem C66_lorenz_gini srt itof ptof pv f g : sorting (N:=exact) srt → fphi_input itof ptof pv f →
  @fphi_curve exact srt (fins itof) (fins ptof) (fins pv) (Fin f) = Ok g →
  let z := counted itof ptof pv f in
  lorenz_coefficient g = Ok (Fin (spread z / (2 * volume z * flux z))%Qc).
Proof. exact (curve_spread srt itof ptof pv f g). Qed.

(** ** C67: the sweep efficiency is a filled volume *)
(** One point for every counted cell with pore volume, in the order of the travel
    times [t]: [t * flux / volume] (pore volumes injected at time [t]) and the
    fraction of the volume that is filled at that time. *)
Theorem C67_sweep_filled srt itof ptof pv f g : sorting (N:=exact) srt → fphi_input itof ptof pv f →
  @fphi_curve exact srt (fins itof) (fins ptof) (fins pv) (Fin f) = Ok g →
  let z := counted itof ptof pv f in
  ∃ y, y ≡ₚ filter (λ c : Qc * Qc, (0 < c.2)%Qc) z ∧ by_time y ∧
    sweep_efficiency g = Ok
      (fins (0%Qc :: ((λ c : Qc * Qc, (c.1 * flux z / volume z)%Qc) <$> y)),
       fins (0%Qc :: ((λ c : Qc * Qc, (filled z c.1 / volume z)%Qc) <$> y))).
Proof. exact (curve_filled srt itof ptof pv f g). Qed.

(** ** C68: only the distribution of the volume over the travel times matters *)
(** So splitting or merging cells of equal travel time, and the units of volume
    and time, do not matter (nor do cut-off cells and cells without volume). *)
Theorem C68_distribution srt srt' a b itof ptof pv f g itof' ptof' pv' f' g' :
  sorting (N:=exact) srt → sorting (N:=exact) srt' → fphi_input itof ptof pv f → fphi_input itof' ptof' pv' f' →
  @fphi_curve exact srt (fins itof) (fins ptof) (fins pv) (Fin f) = Ok g →
  @fphi_curve exact srt' (fins itof') (fins ptof') (fins pv') (Fin f') = Ok g' →
  (0 < a)%Qc → (0 < b)%Qc → same_distribution a b (counted itof ptof pv f) (counted itof' ptof' pv' f') →
  lorenz_coefficient g' = lorenz_coefficient g ∧
  ∃ tD Ev tD' Ev', sweep_efficiency g = Ok (tD, Ev) ∧ sweep_efficiency g' = Ok (tD', Ev') ∧
    ∀ x, x ∈ zip tD Ev ↔ x ∈ zip tD' Ev'.
Proof. exact (curve_distribution srt srt' a b itof ptof pv f g itof' ptof' pv' f' g'). Qed.

(** ** Concrete cases *)
Definition g_itof : list Qc := [q 3; q 1; q 1; q 2].
Definition g_ptof : list Qc := [q 1; q 0; q 1; q 0].
Definition g_pv : list Qc := [q 2; q 1; q 9; q 0].
Definition g_f : Qc := Q2Qc (1 # 2).
(** Travel times 4, 1, 2, 2 and volumes 2, 1, 9, 0; the third cell is cut off.
    Volume 3, flux 3/2, spread 2 * 2 * 3/4 = 3, so the coefficient is 1/3. *)
Example C66_ex : fphi_input g_itof g_ptof g_pv g_f ∧
  this (spread (counted g_itof g_ptof g_pv g_f)) = 3%Q ∧
  match @fphi_curve exact insertion_sort (fins g_itof) (fins g_ptof) (fins g_pv) (Fin g_f) with
  | Ok g => match lorenz_coefficient g with Ok (Fin x) => this x = (1 # 3)%Q | _ => False end
  | _ => False end.
Proof.
  split; [split; try done|split; vm_compute; reflexivity].
  - repeat constructor; done.
  - intros i a b v Ha Hb Hv _. do 4 (destruct i as [|i]; [injection Ha as <-; injection Hb as <-; done|]). done.
  - exists (q 1). split; [right; left|]. done.
Qed.
(** At time 1 the first cell is full and the other a quarter full: 3/2 of 3. *)
Example C67_ex : match @fphi_curve exact insertion_sort (fins g_itof) (fins g_ptof) (fins g_pv) (Fin g_f) with
  | Ok g => match sweep_efficiency g with
    | Ok ([Fin a; Fin b; Fin c], [Fin a'; Fin b'; Fin c']) =>
        (this a, this b, this c) = (0, 1 # 2, 2)%Q ∧ (this a', this b', this c') = (0, 1 # 2, 1)%Q
    | _ => False end
  | _ => False end.
Proof. vm_compute. done. Qed.

(** Times doubled, volumes tripled, and the cell of volume 6 split in 4 and 2. *)
Definition h_itof : list Qc := [q 8; q 0; q 3].
Definition h_ptof : list Qc := [q 0; q 2; q 5].
Definition h_pv : list Qc := [q 4; q 3; q 2].
Lemma Qcmult_cancel_2 (x y : Qc) : (q 2 * x = q 2 * y)%Qc → x = y.
Proof. intros H. apply Qc_is_canon. apply qc_eq_q in H. unfold q in H. rewrite !qc_this_mul, !qc_this_Q2Qc in H. unfold inject_Z in H. lra. Qed.
Example C68_ex : fphi_input h_itof h_ptof h_pv 1%Qc ∧
  same_distribution (q 3) (q 2) (counted g_itof g_ptof g_pv g_f) (counted h_itof h_ptof h_pv 1%Qc) ∧
  match @fphi_curve exact insertion_sort (fins h_itof) (fins h_ptof) (fins h_pv) (Fin 1%Qc) with
  | Ok g => match lorenz_coefficient g with Ok (Fin x) => this x = (1 # 3)%Q | _ => False end
  | _ => False end.
Proof.
  split; [split; try done|split; [|vm_compute; reflexivity]].
  - repeat constructor; done.
  - intros i a b v Ha Hb Hv _. do 3 (destruct i as [|i]; [injection Ha as <-; injection Hb as <-; done|]). done.
  - exists (q 4). split; [left|]. done.
  - intros t. rewrite !volume_at_sum.
    assert (counted g_itof g_ptof g_pv g_f = [(q 4, q 2); (q 1, q 1); (q 2, q 0)]) as -> by by apply (bool_decide_unpack _).
    assert (counted h_itof h_ptof h_pv 1%Qc = [(q 8, q 4); (q 2, q 3); (q 8, q 2)]) as -> by by apply (bool_decide_unpack _).
    assert (∀ n, q (2 * n) = (q 2 * t)%Qc ↔ q n = t) as E.
    { intros n. replace (q (2 * n)) with (q 2 * q n)%Qc by (apply Qc_is_canon; unfold q; rewrite qc_this_mul, !qc_this_Q2Qc; unfold inject_Z, Qeq, Qmult; cbn; lia).
      split; [|by intros ->]. intros H. apply (Qcmult_cancel_2 _ _ H). }
    pose proof (E 4) as E4. pose proof (E 1) as E1. change (2 * 4) with 8 in E4. change (2 * 1) with 2 in E1. clear E.
    cbn [fmap list_fmap fst snd]. repeat case_decide; try (exfalso; tauto); by apply Qc_is_canon.
Qed.

Print Assumptions C66_lorenz_gini.
Print Assumptions C67_sweep_filled.
Print Assumptions C68_distribution.
