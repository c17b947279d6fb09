(** C84: from the fluxes and rates to the Lorenz coefficient: what doubles give
    is near what exact arithmetic gives. *)
From Coq Require Import ZArith Reals Lra Psatz QArith Qcanon Qreals String.
From Coq.QArith Require Qcabs.
From Coq.Floats Require Import SpecFloat.
From Flocq Require Import Core.
From Verif.Model Require Import Base Num OMap Containers Solution Toolbox DerivedQuantities.
From Verif.Spec Require Import ToolboxSpec AcyclicSpec DerivedSpec GiniSpec AccuracySpec CurveSpec.
From Verif.Proofs Require Import Util ExactNum QcLra OrdLaws B64Laws OppLaws TofLaws DerivedExact DerivedMisc Gini Rounding Accuracy CurveAccuracy EndToEnd.
From Verif.Props Require Import Toolbox SameFlow Derived Accuracy CurveAccuracy.
Open Scope Z_scope.

(** In exact arithmetic the Lorenz coefficient changes by at most [2 * e] if the
    travel times change by at most the factor [1 + e]. *)
Theorem C84_stable srt srt' itof ptof itof' ptof' pv f e g g' :
  sorting (N:=exact) srt → sorting (N:=exact) srt' → fphi_input itof ptof pv f → fphi_input itof' ptof' pv f →
  (∀ i a b a' b', itof !! i = Some a → ptof !! i = Some b → itof' !! i = Some a' → ptof' !! i = Some b' →
    (a' + b' <= (1 + e) * (a + b) ∧ a + b <= (1 + e) * (a' + b'))%Qc) →
  @fphi_curve exact srt (fins itof) (fins ptof) (fins pv) (Fin f) = Ok g →
  @fphi_curve exact srt' (fins itof') (fins ptof') (fins pv) (Fin f) = Ok g' →
  ∃ x y, lorenz_coefficient g = Ok (Fin x) ∧ lorenz_coefficient g' = Ok (Fin y) ∧ (Qcabs.Qcabs (x - y) <= 2 * e)%Qc.
Proof.
  intros Hs Hs' FI FI' Hc E E'. pose proof (curve_spread srt _ _ _ _ _ Hs FI E) as S1. pose proof (curve_spread srt' _ _ _ _ _ Hs' FI' E') as S2. cbv zeta in S1, S2.
  eexists _, _. split; [exact S1|]. split; [exact S2|].
  destruct (counted_stable itof ptof itof' ptof' pv f e FI FI' Hc srt srt' g g' _ _ Hs Hs' E E' S1 S2) as [H1 H2].
  apply Qcabs.Qcabs_Qcle_condition. split; [clear -H2|clear -H1]; match goal with H : (?a <= ?b + _)%Qc |- _ => set (u := a) in *; set (w := b) in *; clearbody u w end; qclra.
Qed.

(** Doubles near given times. *)
Lemma times_lorenz srt srt' K (xi xp pv : list (@num b64)) (yi yp : list (@num exact)) :
  sorting srt → @sorting exact srt' → Z.of_nat K ≤ 2 ^ 50 → Forall2 (app K (-310) 90) xi yi → Forall2 (app K (-310) 90) xp yp →
  length xi = length pv → length xp = length pv → Forall b64_ok pv → Forall plain pv → Z.of_nat (length pv) + 1 < 2 ^ 31 →
  (∃ v, v ∈ pv ∧ (0 < rational v)%Qc) →
  (∀ y, y ∈ yi → nleb (Fin (pow2 (-99)) : @num exact) y = true) → (∀ y, y ∈ yp → nleb (Fin (pow2 (-99)) : @num exact) y = true) →
  ∃ g x g' y, fphi_curve srt xi xp pv n1 = Ok g ∧ lorenz_coefficient g = Ok x ∧
    @fphi_curve exact srt' yi yp (q_of <$> pv) n1 = Ok g' ∧ lorenz_coefficient g' = Ok (Fin y) ∧
    apart (errors (22 * (length pv + 1) + 2 * K)) (q_of x) y.
Proof.
  intros Hs Hs' HK Ai Ap Li Lp Ov Pv Hz Hv Ti Tp.
  assert (∀ xs ys, Forall2 (app K (-310) 90) xs ys → (∀ y, y ∈ ys → nleb (Fin (pow2 (-99)) : @num exact) y = true) →
    Forall b64_ok xs ∧ Forall plain xs ∧ q_of <$> xs = fins (rational <$> xs) ∧ ∃ bs, ys = fins bs ∧ length bs = length xs ∧
    ∀ i a b, (rational <$> xs) !! i = Some a → bs !! i = Some b → (0 < a)%Qc ∧ (0 < b)%Qc ∧ (a <= (1 + errors K) * b ∧ b <= (1 + errors K) * a)%Qc) as HA.
  { intros xs ys H. induction H as [|x y xs ys Hxy _ IH]; intros HT.
    { split; [done|]. split; [done|]. split; [done|]. exists []. split; [done|]. split; [done|]. intros i a b Ha. done. }
    destruct IH as (I1 & I2 & I3 & bs & -> & I4 & I5); [intros y' Hy'; apply HT; by right|].
    destruct (time_plain K x y HK Hxy (HT y ltac:(left))) as (T1 & T2 & T3 & b & -> & T4 & T5).
    split; [by constructor|]. split; [by constructor|]. split.
    { rewrite !fmap_cons. unfold fins in *. rewrite fmap_cons, I3. f_equal. apply rational_Fin. by apply (plain_app x). }
    exists (b :: bs). split; [done|]. split; [cbn; by f_equal|]. intros [|i] a' b' Ha Hb.
    { cbn in Ha, Hb. injection Ha as <-. injection Hb as <-. done. }
    by apply (I5 i). }
  destruct (HA xi yi Ai Ti) as (O1 & P1 & F1 & bi & -> & L1 & H1). destruct (HA xp yp Ap Tp) as (O2 & P2 & F2 & bp & -> & L2 & H2).
  assert (q_of <$> pv = fins (rational <$> pv)) as F3.
  { unfold fins. rewrite <-list_fmap_compose. apply list_fmap_ext. intros i w Hw. apply elem_of_list_lookup_2 in Hw. rewrite Forall_forall in Ov, Pv.
    apply rational_Fin. apply (plain_app w (Ov w Hw) (Pv w Hw)). }
  assert (∀ (l bs : list Qc), length bs = length l → ∀ i b, bs !! i = Some b → ∃ a, l !! i = Some a) as Hlook.
  { intros l bs E i b Hb. apply lookup_lt_is_Some. rewrite <-E. by eapply lookup_lt_Some. }
  assert (∀ a b : Qc, (0 < a)%Qc → (0 < b)%Qc → (0 < a + b)%Qc) as Hpos by (intros; qclra).
  assert (plain_input xi xp pv) as PI.
  { split; [done|done|done|done| |done]. intros i a b Ha Hb.
    assert ((rational <$> xi) !! i = Some (rational a)) as Ea by (by rewrite list_lookup_fmap, Ha).
    assert ((rational <$> xp) !! i = Some (rational b)) as Eb by (by rewrite list_lookup_fmap, Hb).
    destruct (lookup_lt_is_Some_2 bi i) as [u Hu]; [rewrite L1; by eapply lookup_lt_Some|]. destruct (lookup_lt_is_Some_2 bp i) as [w Hw]; [rewrite L2; by eapply lookup_lt_Some|].
    apply Hpos; [by apply (H1 i _ u)|by apply (H2 i _ w)]. }
  destruct (C78_lorenz_exact srt srt' xi xp pv Hs Hs' O1 O2 Ov PI) as (g & x & g0 & y0 & E1 & E2 & E3 & E4 & a & Ea & Hap).
  destruct (exact_input xi xp pv Ov PI) as [FI _]. rewrite F1, F2, F3, exact_n1 in E3.
  assert (fphi_input bi bp (rational <$> pv) 1) as FI'.
  { destruct FI as [A1 A2 A3 A4 A5 A6]. rewrite fmap_length in *. split; rewrite ?fmap_length; try done; [congruence|congruence|].
    intros i u w v Hu Hw _ _. destruct (Hlook (rational <$> xi) bi ltac:(by rewrite fmap_length) i u Hu) as [u' Hu'].
    destruct (Hlook (rational <$> xp) bp ltac:(by rewrite fmap_length) i w Hw) as [w' Hw']. apply Hpos; [by apply (H1 i u' u)|by apply (H2 i w' w)]. }
  destruct (DerivedLink.curve_exact srt' _ _ _ _ Hs' FI') as (l & _ & _ & _ & _ & E5). set (g' := (fins _, fins _)) in E5. clearbody g'.
  destruct (C84_stable srt' srt' _ _ bi bp (rational <$> pv) 1 (errors K) g0 g' Hs' Hs' FI FI') as (x' & y & E6 & E7 & Hxy).
  { intros i u w u' w' Hu Hw Hu' Hw'. destruct (H1 i u u' Hu Hu') as (_ & _ & B1 & B2). destruct (H2 i w w' Hw Hw') as (_ & _ & B3 & B4).
    set (k := (1 + errors K)%Qc) in *. clearbody k. clear -B1 B2 B3 B4. rewrite !Qcmult_plus_distr_r. split; by apply Qcplus_le_compat. }
  { exact E3. } { exact E5. }
  rewrite E4 in E6. apply ok_fin_inj in E6 as <-. exists g, x, g', y. split; [done|]. split; [done|]. split; [rewrite F3, exact_n1; exact E5|]. split; [done|].
  exists a. split; [done|]. apply Qcabs.Qcabs_Qcle_condition in Hap as [B1 B2]. apply Qcabs.Qcabs_Qcle_condition in Hxy as [B3 B4].
  assert (errors (22 * (length pv + 1) + 2 * K) = errors (22 * (length pv + 1)) + 2 * errors K)%Qc as ->.
  { apply QR_eq. rewrite QR_add, QR_mul, <-!INR_err, plus_INR, (mult_INR 2). change (QR 2) with (QR (1 + 1)). rewrite QR_add, QR_1. change (INR 2) with 2%R. ring. }
  set (k1 := errors (22 * _)) in *. set (k2 := errors K) in *. clearbody k1 k2. clear -B1 B2 B3 B4. apply Qcabs.Qcabs_Qcle_condition. split; qclra.
Qed.

(** Diagnostics of both kinds and the Lorenz coefficient of their times-of-flight,
    once with doubles and once with exact numbers. *)
Theorem C84_lorenz (p : @problem b64) g f g' f' ev1 ev2 ev1' ev2' sets1 sets2 sets1' sets2' inj prod inj' prod' srt srt' :
  let n := Z.to_nat (pb_cells p) in let K := (n * (all_costs p * (2 * n + 1)))%nat in
  valid p → poses p g f → poses (exactly p) g' f' → @data b64 b64_ok p → acyclic (net_arcs p) → ordinary p →
  Z.of_nat K ≤ 2 ^ 50 → (∀ d, clear_of_cutoff d p) →
  (∀ d u v, flows (flow d p) u v → nltb n0 (total_in (exactly p) d u) = true) →
  diagnose Injection ev1 g p f sets1 = Ok (OSol inj) → diagnose Production ev2 g p f sets2 = Ok (OSol prod) →
  diagnose Injection ev1' g' (exactly p) f' sets1' = Ok (OSol inj') → diagnose Production ev2' g' (exactly p) f' sets2' = Ok (OSol prod') →
  (∀ y, y ∈ sol_global_tof inj' ++ sol_global_tof prod' → nleb (Fin (pow2 (-99)) : @num exact) y = true) →
  sorting srt → @sorting exact srt' →
  ∃ G x G' y, fphi_curve_sol srt inj prod (pb_pv p) n1 = Ok G ∧ lorenz_coefficient G = Ok x ∧
    @fphi_curve_sol exact srt' inj' prod' (pb_pv (exactly p)) n1 = Ok G' ∧ lorenz_coefficient G' = Ok (Fin y) ∧
    apart (errors (22 * (n + 1) + 2 * K)) (q_of x) y.
Proof.
  intros n K Hp HP HP' HD Hac OR HK CL HF Hi Hq Hi' Hq' HT Hs Hs'.
  destruct (global_app p g f g' f' Hp HP HP' HD Hac OR Injection (CL _) _ _ _ _ _ _ HK Hi Hi' (HF _)) as [Li Ai].
  destruct (global_app p g f g' f' Hp HP HP' HD Hac OR Production (CL _) _ _ _ _ _ _ HK Hq Hq' (HF _)) as [Lq Aq].
  fold n in Li, Lq, Ai, Aq. fold K in Ai, Aq.
  assert (length (pb_pv p) = n) as Lv. { pose proof (va_pv _ Hp) as E. unfold zlen in E. unfold n. lia. }
  pose proof (va_cells _ Hp) as Hn.
  destruct (times_lorenz srt srt' K (sol_global_tof inj) (sol_global_tof prod) (pb_pv p) (sol_global_tof inj') (sol_global_tof prod'))
    as (G & x & G' & y & E1 & E2 & E3 & E4 & E5); try done; try congruence.
  - apply Forall_forall. intros x Hx. by apply (da_pv _ _ HD).
  - apply Forall_forall. intros x Hx. right. apply (or_pore p OR). cbn [exactly pb_pv]. by apply elem_of_list_fmap_1.
  - rewrite Lv. assert (6 * (2 * n * n) ≤ K)%nat as H6. { unfold K. assert (6 ≤ all_costs p)%nat by (unfold all_costs; lia). nia. }
    destruct (decide (Z.of_nat n + 1 < 2 ^ 31)) as [|Hbig]; [done|]. assert (2 ^ 31 - 1 ≤ Z.of_nat n) by lia. nia.
  - destruct (pb_pv p) as [|w l] eqn:E; [cbn in Lv; lia|]. exists w. split; [left|].
    destruct (or_pore p OR (q_of w)) as (q & Eq & Hq0 & _); [cbn [exactly pb_pv]; rewrite E; left|]. unfold rational. rewrite Eq.
    apply QR_lt. apply QR_le in Hq0. rewrite QR_pow2 in Hq0. rewrite QR_0. eapply Rlt_le_trans; [apply bpow_gt_0|exact Hq0].
  - intros y Hy. apply HT. apply elem_of_app. by left.
  - intros y Hy. apply HT. apply elem_of_app. by right.
  - exists G, x, G', y. rewrite <-Lv. done.
Qed.

(** ** Examples *)
(** Travel times that differ by a tenth change the coefficient by less than a
    fifth. *)
Definition st_a : list Qc := [q 1; q 2; q 1].
Definition st_b : list Qc := [q 1; q 3; q 0].
Definition st_a' : list Qc := [Q2Qc (11 # 10); q 2; q 1].
Definition st_pv : list Qc := [q 2; q 1; q 4].
Lemma st_input a : a = st_a ∨ a = st_a' → fphi_input a st_b st_pv 1.
Proof.
  intros Ha. split; [by destruct Ha as [-> | ->]|done|done|repeat constructor; discriminate| |].
  - intros i x y v Hx Hy _ _. destruct Ha as [-> | ->]; do 3 (destruct i as [|i]; [injection Hx as <-; injection Hy as <-; apply Qc_ltb_true; vm_compute; reflexivity|]); done.
  - exists (q 2). split; [left|]. split; [apply Qc_ltb_true; vm_compute; reflexivity|]. unfold kept. apply Qc_ltb_false. vm_compute. reflexivity.
Qed.
Example C84_ex_stable : fphi_input st_a st_b st_pv 1 ∧ fphi_input st_a' st_b st_pv 1 ∧
  (∀ i a b a' b', st_a !! i = Some a → st_b !! i = Some b → st_a' !! i = Some a' → st_b !! i = Some b' →
    (a' + b' <= (1 + Q2Qc (1 # 10)) * (a + b) ∧ a + b <= (1 + Q2Qc (1 # 10)) * (a' + b'))%Qc) ∧
  match fphi_curve insertion_sort (fins st_a) (fins st_b) (fins st_pv) (Fin 1), fphi_curve insertion_sort (fins st_a') (fins st_b) (fins st_pv) (Fin 1) with
  | Ok g, Ok g' => match lorenz_coefficient g, lorenz_coefficient g' with
    | Ok (Fin x), Ok (Fin y) => Qc_ltb x y
    | _, _ => false
    end
  | _, _ => false
  end = true.
Proof.
  split; [apply st_input; by left|]. split; [apply st_input; by right|]. split; [|vm_compute; reflexivity].
  intros i a b a' b' Ha Hb Ha' Hb'. do 3 (destruct i as [|i]; [injection Ha as <-; injection Hb as <-; injection Ha' as <-; injection Hb' as <-; split; apply Qc_ltb_false; vm_compute; reflexivity|]). done.
Qed.
(** The whole chain on the problem with five cells, where concentrations and
    times are rounded: both Lorenz coefficients exist, differ, and are at most
    3212 parts in 2^51 apart. *)
Definition pe_sets := [cs_make "P"%string [3]].
Definition large_times (sol : @solution exact) : bool := forallb (λ y, nleb (Fin (pow2 (-99)) : @num exact) y) (sol_global_tof sol).
Definition lorenz_of {N : Num} srt inj prod pv : option num :=
  match fphi_curve_sol srt inj prod pv n1 with Ok g => match lorenz_coefficient g with Ok x => Some x | _ => None end | _ => None end.
Example C84_runs :
  solves (@ex_run b64 Injection ex_sets) (λ inj, solves (@ex_run b64 Production pe_sets) (λ prod,
  solves (ex_run_exactly Injection ex_sets) (λ inj', solves (ex_run_exactly Production pe_sets) (λ prod',
    large_times inj' && large_times prod' &&
    match lorenz_of insertion_sort inj prod (pb_pv ex_p), lorenz_of insertion_sort inj' prod' (pb_pv ex_exactly) with
    | Some x, Some (Fin y) => negb (neqb (q_of x) (Fin y)) && Qc_ltb (Q2Qc (1 # 10)) y
    | _, _ => false
    end)))) = true.
Proof. vm_compute. reflexivity. Qed.
Lemma large_in sol y : large_times sol = true → y ∈ sol_global_tof sol → nleb (Fin (pow2 (-99)) : @num exact) y = true.
Proof. unfold large_times. intros H Hy. apply (proj1 (forallb_forall _ _) H). by apply elem_of_list_In. Qed.
Lemma ex_flowing d u v : flows (flow d (@ex_p b64)) u v → nltb n0 (total_in (exactly (@ex_p b64)) d u) = true.
Proof.
  intros Hf. destruct d.
  - assert (map fst (flow Injection (@ex_p b64)) = [(0, 2); (1, 2); (2, 3)]) as E by (vm_compute; reflexivity). unfold flows in Hf. rewrite E in Hf. clear E.
    do 3 (apply elem_of_cons in Hf as [Hf|Hf]; [injection Hf as -> ->; vm_compute; reflexivity|]). destruct (not_elem_of_nil _ Hf).
  - assert (map fst (flow Production (@ex_p b64)) = [(2, 0); (2, 1); (3, 2)]) as E by (vm_compute; reflexivity). unfold flows in Hf. rewrite E in Hf. clear E.
    do 3 (apply elem_of_cons in Hf as [Hf|Hf]; [injection Hf as -> ->; vm_compute; reflexivity|]). destruct (not_elem_of_nil _ Hf).
Qed.
Example C84_ex inj prod inj' prod' : @ex_run b64 Injection ex_sets = Ok (OSol inj) → @ex_run b64 Production pe_sets = Ok (OSol prod) →
  ex_run_exactly Injection ex_sets = Ok (OSol inj') → ex_run_exactly Production pe_sets = Ok (OSol prod') →
  ∃ G x G' y, fphi_curve_sol insertion_sort inj prod (pb_pv (@ex_p b64)) n1 = Ok G ∧ lorenz_coefficient G = Ok x ∧
    @fphi_curve_sol exact insertion_sort inj' prod' (pb_pv ex_exactly) n1 = Ok G' ∧ lorenz_coefficient G' = Ok (Fin y) ∧
    apart (errors 3212) (q_of x) y.
Proof.
  intros H1 H2 H3 H4. pose proof C84_runs as HR. rewrite H1 in HR. cbn [solves] in HR. rewrite H2 in HR. cbn [solves] in HR.
  rewrite H3 in HR. cbn [solves] in HR. rewrite H4 in HR. cbn [solves] in HR. apply andb_prop in HR as [HR _]. apply andb_prop in HR as [L1 L2].
  apply (C84_lorenz (@ex_p b64) _ _ _ _ _ _ _ _ _ _ _ _ inj prod inj' prod' insertion_sort insertion_sort ex_valid ex_poses ex_poses_exactly (data_impl _ _ _ int_b64 ex_int)
    ex_acyclic_b64 ex_ordinary ltac:(vm_compute; discriminate) ex_clear ex_flowing H1 H2 H3 H4); [|exact b64_insertion|exact exact_insertion].
  intros y [Hy|Hy]%elem_of_app; [exact (large_in inj' y L1 Hy)|exact (large_in prod' y L2 Hy)].
Qed.
Print Assumptions C84_stable.
Print Assumptions C84_lorenz.
