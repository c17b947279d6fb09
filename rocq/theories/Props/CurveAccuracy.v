(** C78: the F-Phi curve and the Lorenz coefficient, computed with doubles, agree
    with those of exact arithmetic up to a number of roundings that grows with
    the number of cells. *)
From Coq Require Import ZArith Reals Lra Psatz QArith Qcanon Qreals.
From Coq.QArith Require Qcabs.
From Coq.Floats Require Import SpecFloat.
From Verif.Model Require Import Base Num DerivedQuantities.
From Verif.Spec Require Import DerivedSpec GiniSpec AccuracySpec CurveSpec.
From Verif.Proofs Require Import Util ExactNum QcLra OrdLaws B64Laws DerivedExact DerivedMisc Gini Rounding Accuracy CurveAccuracy.
From Verif.Props Require Import PairAccuracy Derived.
Open Scope Z_scope.

(** The curve computed with doubles is the one of the cells in the order of their
    rounded travel times: storage capacity and flow capacity are off by relative
    errors. *)
Theorem C78_curve srt (itof ptof pv : list (@num b64)) : let n := length pv in
  sorting srt → Forall b64_ok itof → Forall b64_ok ptof → Forall b64_ok pv → plain_input itof ptof pv →
  ∃ y Phi F, fphi_curve srt itof ptof pv n1 = Ok (Phi, F) ∧ y ≡ₚ rounded_cells itof ptof pv ∧ by_time y ∧
    length Phi = S n ∧ length F = S n ∧
    ∀ k, (k ≤ n)%nat → ∃ a b, Phi !! k = Some a ∧ F !! k = Some b ∧
      off_by (errors (2 * n + 1)) (q_of a) (Fin (volume (take k y) / volume y)%Qc) ∧
      off_by (errors (2 * n + 3)) (q_of b) (Fin (flux (take k y) / flux y)%Qc).
Proof.
  intros n Hs Oi Op Ov PI. destruct (curve_close srt itof ptof pv Hs Oi Op Ov PI) as (y & Phi & F & E & HP & HB & L1 & L2 & H).
  exists y, Phi, F. do 5 (split; [done|]). pose proof (pi_size _ _ _ PI) as Hz. intros k Hk. destruct (H k Hk) as (a & b & Ea & Eb & A & B). exists a, b.
  split; [done|]. split; [done|]. split; (eapply app_relative; [eassumption|lia]).
Qed.
(** The Lorenz coefficient computed with doubles is off by an absolute error from
    the mean difference of the cells' frequencies, where nothing is rounded or
    sorted. *)
Theorem C78_lorenz srt (itof ptof pv : list (@num b64)) :
  sorting srt → Forall b64_ok itof → Forall b64_ok ptof → Forall b64_ok pv → plain_input itof ptof pv →
  ∃ g x, fphi_curve srt itof ptof pv n1 = Ok g ∧ lorenz_coefficient g = Ok x ∧
    let z := true_cells itof ptof pv in
    apart (errors (22 * (length pv + 1))) (q_of x) (spread z / (2 * volume z * flux z))%Qc.
Proof. intros Hs Oi Op Ov PI. by apply lorenz_accurate. Qed.

(** ** Against the exact run *)
Lemma zip_rational (a b c : list (@num b64)) :
  zip (zip (rational <$> a) (rational <$> b)) (rational <$> c) =
  (λ x : @num b64 * @num b64 * @num b64, (rational x.1.1, rational x.1.2, rational x.2)) <$> zip (zip a b) c.
Proof.
  revert b c. induction a as [|x a IH]; intros [|y b] [|w c]; try done. rewrite !fmap_cons. cbn [zip zip_with]. rewrite fmap_cons. f_equal. apply IH.
Qed.
Lemma filter_id {A} (P : A → Prop) `{!∀ x, Decision (P x)} (l : list A) : (∀ x, x ∈ l → P x) → filter P l = l.
Proof.
  induction l as [|a l IH]; intros HP; [done|]. rewrite filter_cons_True by (apply HP; left). f_equal. apply IH. intros x Hx. apply HP. by right.
Qed.
Lemma elem_le_sum (l : list Qc) x : Forall (λ v, (0 <= v)%Qc) l → x ∈ l → (x <= qsum l)%Qc.
Proof.
  intros H Hx. apply elem_of_list_split in Hx as (l1 & l2 & ->). apply Forall_app in H as [H1 H2]. apply Forall_cons in H2 as [_ H2].
  apply qsum_nonneg in H1, H2. rewrite qsum_app, qsum_cons. set (a := qsum l1) in *. set (b := qsum l2) in *. clearbody a b. qclra.
Qed.
Lemma plain_nonneg (l : list (@num b64)) : Forall b64_ok l → Forall plain l → Forall (λ v, (0 <= v)%Qc) (rational <$> l).
Proof.
  intros O H. apply Forall_fmap, Forall_forall. intros x Hx. rewrite Forall_forall in O, H. pose proof (plain_app x (O x Hx) (H x Hx)) as A.
  rewrite rational_Fin in A by apply A. destruct A as [_ (_ & _ & A & _) _]. cbn. apply QR_le. by rewrite QR_0.
Qed.
Lemma exact_input itof ptof pv : Forall b64_ok pv → plain_input itof ptof pv →
  fphi_input (rational <$> itof) (rational <$> ptof) (rational <$> pv) 1 ∧
  counted (rational <$> itof) (rational <$> ptof) (rational <$> pv) 1 = true_cells itof ptof pv.
Proof.
  intros Ov PI. pose proof (plain_nonneg pv Ov (proj2 (proj2 (pi_plain _ _ _ PI)))) as Hn.
  assert (∀ v, v ∈ rational <$> pv → kept (rational <$> pv) 1 v) as HK.
  { intros v Hv. unfold kept. rewrite Qcmult_1_l. by apply elem_le_sum. }
  split.
  - destruct PI as [E1 E2 E3 _ Ht (v & Hv & Hv0)]. split; rewrite ?fmap_length; try done.
    + intros i a b v' Ha Hb _ _. rewrite list_lookup_fmap in Ha, Hb. apply fmap_Some in Ha as (a' & Ha & ->). apply fmap_Some in Hb as (b' & Hb & ->).
      by apply (Ht i).
    + exists (rational v). assert (rational v ∈ rational <$> pv) as Hin by (by apply elem_of_list_fmap_1). split; [done|]. split; [done|]. by apply HK.
  - unfold counted, survivors, true_cells. rewrite filter_id.
    + rewrite zip_rational, <-list_fmap_compose. done.
    + intros [[a b] v] Hx. apply HK. by apply elem_of_zip_r in Hx.
Qed.
(** The same bound against the run in exact arithmetic, whatever its sorting
    algorithm. *)
Theorem C78_lorenz_exact srt srt' (itof ptof pv : list (@num b64)) :
  sorting srt → @sorting exact srt' → Forall b64_ok itof → Forall b64_ok ptof → Forall b64_ok pv → plain_input itof ptof pv →
  ∃ g x g' y, fphi_curve srt itof ptof pv n1 = Ok g ∧ lorenz_coefficient g = Ok x ∧
    @fphi_curve exact srt' (q_of <$> itof) (q_of <$> ptof) (q_of <$> pv) n1 = Ok g' ∧ lorenz_coefficient g' = Ok (Fin y) ∧
    apart (errors (22 * (length pv + 1))) (q_of x) y.
Proof.
  intros Hs Hs' Oi Op Ov PI. destruct (C78_lorenz srt itof ptof pv Hs Oi Op Ov PI) as (g & x & E1 & E2 & HA).
  destruct (exact_input itof ptof pv Ov PI) as [FI EC].
  assert (∀ l : list (@num b64), Forall b64_ok l → Forall plain l → q_of <$> l = fins (rational <$> l)) as HF.
  { intros l O H. unfold fins. rewrite <-list_fmap_compose. apply list_fmap_ext. intros i w Hw. apply rational_Fin.
    apply elem_of_list_lookup_2 in Hw. rewrite Forall_forall in O, H. apply (plain_app w (O w Hw) (H w Hw)). }
  destruct (pi_plain _ _ _ PI) as (P1 & P2 & P3). rewrite !HF by done.
  destruct (DerivedLink.curve_exact srt' _ _ _ _ Hs' FI) as (l & _ & _ & _ & _ & E). pose proof (curve_spread srt' _ _ _ _ _ Hs' FI E) as E'. cbv zeta in E'. rewrite EC in E'.
  exists g, x. eexists _, _. split; [done|]. split; [done|]. split; [rewrite exact_n1; exact E|]. split; [exact E'|exact HA].
Qed.

Definition plainb (x : @num b64) : bool :=
  match q_of x with Fin q => Qc_eqb q 0 || (negb (Qc_ltb q (pow2 (-100))) && negb (Qc_ltb (pow2 100) q)) | _ => false end.
Lemma plainb_plain x : plainb x = true → plain x.
Proof.
  unfold plainb, plain, sized. destruct (q_of x) as [q| | |]; try done. intros [H|H]%orb_true_iff; [left; by apply Qc_eqb_true in H as ->|right].
  apply andb_true_iff in H as [H1 H2]. apply negb_true_iff in H1, H2. apply Qc_ltb_false in H1, H2. by exists q.
Qed.
Lemma oksb (l : list (@num b64)) : forallb (λ x, valid_binary 53 1024 x) l = true → Forall b64_ok l.
Proof. intros H. apply Forall_forall. intros x Hx. apply elem_of_list_In in Hx. by apply (proj1 (forallb_forall _ _) H). Qed.
Lemma plainsb (l : list (@num b64)) : forallb plainb l = true → Forall plain l.
Proof. intros H. apply Forall_forall. intros x Hx. apply elem_of_list_In in Hx. apply plainb_plain. by apply (proj1 (forallb_forall _ _) H). Qed.

(** Hence the coefficient of doubles is in the unit interval but for the same
    error, *)
Theorem C78_range srt (itof ptof pv : list (@num b64)) : let r := errors (22 * (length pv + 1)) in
  sorting srt → Forall b64_ok itof → Forall b64_ok ptof → Forall b64_ok pv → plain_input itof ptof pv →
  ∃ g x, fphi_curve srt itof ptof pv n1 = Ok g ∧ lorenz_coefficient g = Ok x ∧
    ∃ a, q_of x = Fin a ∧ (- r <= a)%Qc ∧ (a <= 1 + r)%Qc.
Proof.
  intros r Hs Oi Op Ov PI. destruct (C78_lorenz srt itof ptof pv Hs Oi Op Ov PI) as (g & x & E1 & E2 & (a & Ea & HA)). exists g, x.
  split; [done|]. split; [done|]. exists a. split; [done|]. destruct (exact_input itof ptof pv Ov PI) as [FI EC].
  destruct (DerivedLink.curve_exact insertion_sort _ _ _ _ exact_insertion FI) as (l & _ & _ & _ & _ & E).
  pose proof (curve_spread _ _ _ _ _ _ exact_insertion FI E) as E'. cbv zeta in E'. rewrite EC in E'.
  destruct (C44_lorenz_range _ _ _ _ _ _ exact_insertion FI E) as (y & Ey & Y0 & Y1 & _). rewrite E' in Ey. apply ok_fin_inj in Ey. rewrite Ey in HA.
  apply Qcabs.Qcabs_Qcle_condition in HA as [H1 H2]. fold r in H1, H2. clearbody r. clear -H1 H2 Y0 Y1. split; qclra.
Qed.
(** and not exactly: three cells with the same travel time give a negative
    number, where exact arithmetic gives zero. *)
Theorem C78_unit_interval_refuted : ∃ (itof ptof pv : list (@num b64)) g x,
  Forall b64_ok itof ∧ Forall b64_ok ptof ∧ Forall b64_ok pv ∧ plain_input itof ptof pv ∧
  fphi_curve insertion_sort itof ptof pv n1 = Ok g ∧ lorenz_coefficient g = Ok x ∧ nltb x n0 = true ∧
  let z := true_cells itof ptof pv in (spread z / (2 * volume z * flux z) = 0)%Qc.
Proof.
  exists [n1; n1; n1], [n0; n0; n0], [n1; n1; nofZ 5].
  destruct (fphi_curve insertion_sort [n1; n1; n1] [n0; n0; n0] [n1; n1; nofZ 5] n1) as [g| | | |] eqn:E; try (exfalso; vm_compute in E; discriminate E).
  destruct (lorenz_coefficient g) as [x| | | |] eqn:E'; try (exfalso; vm_compute in E; injection E as <-; vm_compute in E'; discriminate E').
  exists g, x. split; [apply oksb; vm_compute; reflexivity|]. split; [apply oksb; vm_compute; reflexivity|]. split; [apply oksb; vm_compute; reflexivity|].
  split; [|split; [done|split; [done|split]]].
  - split; [done|done|done| | |].
    + split; [apply plainsb; vm_compute; reflexivity|]. split; apply plainsb; vm_compute; reflexivity.
    + intros i a b Ha Hb. apply Qc_ltb_true.
      do 3 (destruct i as [|i]; [cbn [lookup list_lookup] in Ha, Hb; injection Ha as <-; injection Hb as <-; vm_compute; reflexivity|]). done.
    + exists n1. split; [left|]. apply Qc_ltb_true. vm_compute. reflexivity.
  - vm_compute in E. injection E as <-. vm_compute in E'. injection E' as <-. vm_compute. reflexivity.
  - apply Qc_eqb_true. vm_compute. reflexivity.
Qed.

(** ** Example: four cells, one of them empty *)
Definition tenth (k : Z) : @num b64 := ndiv (nofZ k) (nofZ 10).
Definition ex_itof : list (@num b64) := [tenth 1; tenth 7; tenth 3; n0].
Definition ex_ptof : list (@num b64) := [tenth 2; n0; tenth 13; tenth 1].
Definition ex_pv : list (@num b64) := [tenth 3; n1; tenth 21; n0].
Example ex_input : Forall b64_ok ex_itof ∧ Forall b64_ok ex_ptof ∧ Forall b64_ok ex_pv ∧ plain_input ex_itof ex_ptof ex_pv.
Proof.
  split; [apply oksb; vm_compute; reflexivity|]. split; [apply oksb; vm_compute; reflexivity|]. split; [apply oksb; vm_compute; reflexivity|].
  split; [done|done|done| | |].
  - split; [apply plainsb; vm_compute; reflexivity|]. split; apply plainsb; vm_compute; reflexivity.
  - intros i a b Ha Hb. apply Qc_ltb_true.
    do 4 (destruct i as [|i]; [cbn [lookup list_lookup ex_itof ex_ptof] in Ha, Hb; injection Ha as <-; injection Hb as <-; vm_compute; reflexivity|]). done.
  - exists n1. split; [unfold ex_pv; set_solver|]. apply Qc_ltb_true. vm_compute. reflexivity.
Qed.
(** The travel time 0.1 + 0.2 is rounded, and so is the coefficient, though by
    less than the bound of 110 * 2^-51. *)
Example C78_ex :
  match fphi_curve insertion_sort ex_itof ex_ptof ex_pv n1 with
  | Ok g => match lorenz_coefficient g with
    | Ok x => let z := true_cells ex_itof ex_ptof ex_pv in let y := (spread z / (2 * volume z * flux z))%Qc in
        negb (Qc_eqb (rational x) y) && Qc_ltb (Qcabs.Qcabs (rational x - y)) (pow2 (-51)) && Qc_ltb (Q2Qc (1 # 4)) y
    | _ => false
    end
  | _ => false
  end = true ∧
  negb (Qc_eqb (rational (nadd (tenth 1) (tenth 2))) (rational (tenth 1) + rational (tenth 2))) = true.
Proof. split; vm_compute; reflexivity. Qed.

Print Assumptions C78_curve.
Print Assumptions C78_lorenz.
Print Assumptions C78_lorenz_exact.
Print Assumptions C78_range.
Print Assumptions C78_unit_interval_refuted.
