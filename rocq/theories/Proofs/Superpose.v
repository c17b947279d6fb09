(** Times-of-flight are linear in the pore volumes, in exact arithmetic and without
    cycles: property C92. *)
From Coq Require Import QArith Qcanon.
From Verif.Model Require Import Base Num OMap Containers Solution AssembledConnections Tarjan TracerTofSolver Toolbox DerivedQuantities.
From Verif.Spec Require Import ToolboxSpec MirrorSpec DerivedSpec MonotoneSpec ConditionSpec SuperposeSpec.
From Verif.Proofs Require Import Util OMapFacts ExactNum QcLra OrdLaws ToolboxState ToolboxRates SolverBase SolverRun SolverTop SolverGen
  ToolboxFlow ToolboxVal ToolboxSane ToolboxThms GaussSeidel ExactRun ToolboxExact Duality Balance Condition Raise.
Open Scope Z_scope.

Section layered.
Local Open Scope Qc_scope.
Context (n : Z) (W : Z → Z → Qc) (T b : Z → Qc) (D : Z → nat).
Notation all := (seqZ 0 n).
Context (HD : ∀ u v, W u v ≠ 0 → (D u < D v)%nat).
Lemma sum_eq (h h' : Z → Qc) v : (∀ u, u ∈ all → (D u < D v)%nat → h u = h' u) → qsum (map (λ u, h u * W u v) all) = qsum (map (λ u, h' u * W u v) all).
Proof.
  intros H. apply qsum_ext. intros u Hu. destruct (Qc_eq_dec (W u v) 0) as [E|E]; [by rewrite E, !Qcmult_0_r|]. by rewrite (H u Hu (HD u v E)).
Qed.
(** Down the flow a linear system has one solution. *)
Lemma one_solution (r h h' : Z → Qc) : (∀ v, v ∈ all → T v = 0 → h v = 0) → (∀ v, v ∈ all → T v = 0 → h' v = 0) →
  (∀ v, v ∈ all → T v * h v = r v + qsum (map (λ u, h u * W u v) all)) →
  (∀ v, v ∈ all → T v * h' v = r v + qsum (map (λ u, h' u * W u v) all)) → ∀ v, v ∈ all → h v = h' v.
Proof.
  intros Z0 Z0' E E'. assert (∀ k v, (D v < k)%nat → v ∈ all → h v = h' v) as H; [|intros v; by apply (H (S (D v))); lia].
  induction k as [|k IH]; [lia|]. intros v Hk Hv. destruct (Qc_eq_dec (T v) 0) as [E0|E0]; [by rewrite Z0, Z0'|].
  assert (T v * h v = T v * h' v) as X. { rewrite E, E' by done. f_equal. apply sum_eq. intros u Hu Hl. apply IH; [lia|done]. }
  transitivity (T v * h v / T v); [by field|]. rewrite X. by field.
Qed.
(** Times weighted with concentrations solve such a system. *)
Lemma combine (c V V1 V2 τ τ1 τ2 : Z → Qc) x y : (∀ v, v ∈ all → T v = 0 → c v = 0) → (∀ v, v ∈ all → V v = x * V1 v + y * V2 v) →
  (∀ v, v ∈ all → T v * c v * τ v = V v * c v + qsum (map (λ u, τ u * c u * W u v) all)) →
  (∀ v, v ∈ all → T v * c v * τ1 v = V1 v * c v + qsum (map (λ u, τ1 u * c u * W u v) all)) →
  (∀ v, v ∈ all → T v * c v * τ2 v = V2 v * c v + qsum (map (λ u, τ2 u * c u * W u v) all)) →
  ∀ v, v ∈ all → c v ≠ 0 → τ v = x * τ1 v + y * τ2 v.
Proof.
  intros Z0 HV E E1 E2 v Hv Hc.
  assert (τ v * c v = (x * τ1 v + y * τ2 v) * c v) as X.
  { apply (one_solution (λ v, V v * c v) (λ v, τ v * c v) (λ v, (x * τ1 v + y * τ2 v) * c v)); [..|exact Hv].
    - intros w Hw Ew. rewrite Z0 by done. ring.
    - intros w Hw Ew. rewrite Z0 by done. ring.
    - intros w Hw. rewrite <-E by done. ring.
    - intros w Hw. rewrite (qsum_ext _ (λ u, x * (τ1 u * c u * W u w) + y * (τ2 u * c u * W u w))) by (intros; ring).
      rewrite qsum_plus, !qsum_scale, HV by done.
      transitivity (x * (T w * c w * τ1 w) + y * (T w * c w * τ2 w)); [ring|]. rewrite E1, E2 by done. ring. }
  transitivity (τ v * c v / c v); [by field|]. rewrite X. by field.
Qed.
End layered.

Section results.
Local Open Scope Qc_scope.
Local Notation fin x := (Fin x : @num exact).
Lemma below_cap (x : Qc) t : t = nmin (fin x) max_tof → nltb t (@cutoff exact) = true → t = fin x.
Proof.
  intros -> H. unfold nmin in *. change (@cutoff exact) with (@max_tof exact) in H. destruct (nltb max_tof (fin x)) eqn:E; [|done]. exfalso. revert H. vm_compute. discriminate.
Qed.

Context (n : Z) (cs : list (Z * Z * list (@num exact))) (m : smap cellset_id (@cellset_values exact)) (V V1 V2 : list (@num exact)) (x y : Qc).
Context (HC : V = zip_with (λ a b, nadd (nmul (fin x) a) (nmul (fin y) b)) V1 V2).
Notation P pv := (mkProblem n cs pv m).
Context (Hp : valid (P V)) (HD : data finite (P V)) (HV : pores_ok (P V)) (g : cgraph) (f : cvalues) (HP : poses (P V) g f).
Context (Hp1 : valid (P V1)) (HD1 : data finite (P V1)) (HV1 : pores_ok (P V1)) (g1 : cgraph) (f1 : cvalues) (HP1 : poses (P V1) g1 f1).
Context (Hp2 : valid (P V2)) (HD2 : data finite (P V2)) (HV2 : pores_ok (P V2)) (g2 : cgraph) (f2 : cvalues) (HP2 : poses (P V2) g2 f2).
Context (Hac : acyclic (net_arcs (P V))) (d : direction).
Context (HS : ∀ v, (0 ≤ v < n)%Z → slow_cell d (P V) v = false) (HS1 : ∀ v, (0 ≤ v < n)%Z → slow_cell d (P V1) v = false)
  (HS2 : ∀ v, (0 ≤ v < n)%Z → slow_cell d (P V2) v = false).
Context (ev ev1 ev2 : env) (sets sets1 sets2 : list cellset) (sol sol1 sol2 : @solution exact).
Context (H : diagnose d ev g (P V) f sets = Ok (OSol sol)) (H1 : diagnose d ev1 g1 (P V1) f1 sets1 = Ok (OSol sol1))
  (H2 : diagnose d ev2 g2 (P V2) f2 sets2 = Ok (OSol sol2)).
Notation all := (seqZ 0 n).
Notation T := (Tt (P V) d).
Notation W := (Wt (P V) d).

Lemma pores_combine v : (0 ≤ v < n)%Z → pvq (P V) v = x * pvq (P V1) v + y * pvq (P V2) v.
Proof.
  intros Hv. pose proof (va_pv _ Hp1) as L1. pose proof (va_pv _ Hp2) as L2. cbn [pb_pv pb_cells] in L1, L2. unfold zlen in *.
  destruct (lookup_lt_is_Some_2 V1 (Z.to_nat v)) as [a Ea]; [lia|]. destruct (lookup_lt_is_Some_2 V2 (Z.to_nat v)) as [b Eb]; [lia|].
  destruct (da_pv _ _ HD1 a) as [a' ->]; [by eapply elem_of_list_lookup_2|]. destruct (da_pv _ _ HD2 b) as [b' ->]; [by eapply elem_of_list_lookup_2|].
  unfold pvq, pore. cbn [pb_pv]. rewrite HC, lookup_zip_with, Ea, Eb. reflexivity.
Qed.
Lemma on_time pv v : valid (P pv) → data finite (P pv) → pores_ok (P pv) → slow_cell d (P pv) v = false → late (P pv) d v = false.
Proof. intros A B C E. by rewrite <-(slow_is_late d (P pv) v A B C). Qed.
Lemma in_all v : v ∈ all → (0 ≤ v < n)%Z.
Proof. intros Hv%elem_of_seqZ. lia. Qed.
Lemma lay : ∃ D : Z → nat, ∀ u v, W u v ≠ 0 → (D u < D v)%nat.
Proof.
  destruct (layers_exist (P V) d g f ev sets sol Hp HP Hac H) as (D & HL & _). exists D. intros u v Hne.
  destruct (decide (flows (flow d (P V)) u v)) as [Hf|Hf]; [by apply HL|]. by rewrite Wt_none in Hne.
Qed.

Lemma combined_well id v t t1 t2 : id ∈ map cs_id sets → id ∈ map cs_id sets1 → id ∈ map cs_id sets2 → (0 ≤ v < n)%Z →
  om_find v (sol_tof sol id) = Some t → om_find v (sol_tof sol1 id) = Some t1 → om_find v (sol_tof sol2 id) = Some t2 →
  nltb t cutoff = true → nltb t1 cutoff = true → nltb t2 cutoff = true → t = nadd (nmul (fin x) t1) (nmul (fin y) t2).
Proof.
  intros Hid Hid1 Hid2 Hv Et Et1 Et2 Lt Lt1 Lt2. destruct lay as (D & HL).
  destruct (local_exact (P V) g f Hp HP HD HV Hac d ev sets sol id H (λ _, Hid)) as (τ & _ & X).
  destruct (local_exact (P V1) g1 f1 Hp1 HP1 HD1 HV1 Hac d ev1 sets1 sol1 id H1 (λ _, Hid1)) as (τ1 & _ & X1).
  destruct (local_exact (P V2) g2 f2 Hp2 HP2 HD2 HV2 Hac d ev2 sets2 sol2 id H2 (λ _, Hid2)) as (τ2 & _ & X2).
  assert (v ∈ all) as Hva by (apply elem_of_seqZ; lia).
  assert (∀ w, w ∈ all → cq sol1 id w = cq sol id w) as C1.
  { apply (one_solution n W T D HL (rq (P V) d id)); try (intros w _; first [apply X1|apply X]).
    - intros w _. destruct (X1 w) as (_ & _ & _ & _ & _ & E & _). change (Tt (P V1) d w) with (T w) in E. rewrite E. apply Qcplus_comm.
    - intros w _. destruct (X w) as (_ & _ & _ & _ & _ & E & _). rewrite E. apply Qcplus_comm. }
  assert (∀ w, w ∈ all → cq sol2 id w = cq sol id w) as C2.
  { apply (one_solution n W T D HL (rq (P V) d id)); try (intros w _; first [apply X2|apply X]).
    - intros w _. destruct (X2 w) as (_ & _ & _ & _ & _ & E & _). change (Tt (P V2) d w) with (T w) in E. rewrite E. apply Qcplus_comm.
    - intros w _. destruct (X w) as (_ & _ & _ & _ & _ & E & _). rewrite E. apply Qcplus_comm. }
  assert (cq sol id v ≠ 0) as Hc. { destruct (present (P V) g f Hp HP HD HV d ev sets sol id v H Hid) as [(_ & _ & _ & ?)|(E & _)]; [done|congruence]. }
  assert (τ v = x * τ1 v + y * τ2 v) as E.
  { apply (combine n W T D HL (cq sol id) (pvq (P V)) (pvq (P V1)) (pvq (P V2)) τ τ1 τ2 x y); [| | | | |exact Hva|exact Hc].
    - intros w _. apply X.
    - intros w Hw. apply pores_combine. by apply in_all.
    - intros w Hw. apply X. apply on_time; [done..|]. by apply HS, in_all.
    - intros w Hw. rewrite <-(C1 w Hw), (qsum_ext _ (λ u, τ1 u * cq sol1 id u * W u w)) by (intros; by rewrite C1).
      apply X1. apply on_time; [done..|]. by apply HS1, in_all.
    - intros w Hw. rewrite <-(C2 w Hw), (qsum_ext _ (λ u, τ2 u * cq sol2 id u * W u w)) by (intros; by rewrite C2).
      apply X2. apply on_time; [done..|]. by apply HS2, in_all. }
  destruct (X v) as (_ & _ & Y & _). destruct (X1 v) as (_ & _ & Y1 & _). destruct (X2 v) as (_ & _ & Y2 & _).
  rewrite (below_cap _ _ (Y t Et) Lt), (below_cap _ _ (Y1 t1 Et1) Lt1), (below_cap _ _ (Y2 t2 Et2) Lt2), E. reflexivity.
Qed.

Lemma combined_global v t t1 t2 : (0 ≤ v < n)%Z →
  sol_global_tof sol !! Z.to_nat v = Some t → sol_global_tof sol1 !! Z.to_nat v = Some t1 → sol_global_tof sol2 !! Z.to_nat v = Some t2 →
  nltb t cutoff = true → nltb t1 cutoff = true → nltb t2 cutoff = true → t = nadd (nmul (fin x) t1) (nmul (fin y) t2).
Proof.
  intros Hv Et Et1 Et2 Lt Lt1 Lt2. destruct lay as (D & HL).
  destruct (global_exact (P V) g f Hp HP HD HV Hac d ev sets sol H) as (_ & τ & c & X).
  destruct (global_exact (P V1) g1 f1 Hp1 HP1 HD1 HV1 Hac d ev1 sets1 sol1 H1) as (_ & τ1 & c1 & X1).
  destruct (global_exact (P V2) g2 f2 Hp2 HP2 HD2 HV2 Hac d ev2 sets2 sol2 H2) as (_ & τ2 & c2 & X2). cbn [pb_cells] in X, X1, X2.
  assert (v ∈ all) as Hva by (apply elem_of_seqZ; lia).
  assert (∀ w, w ∈ all → c1 w = c w) as C1.
  { apply (one_solution n W T D HL (rates (P V) d)); try (intros w Hw%in_all; first [apply (X1 w Hw)|apply (X w Hw)]).
    - intros w Hw%in_all. destruct (X1 w Hw) as (_ & _ & _ & _ & E & _). change (Tt (P V1) d w) with (T w) in E. rewrite E. apply Qcplus_comm.
    - intros w Hw%in_all. destruct (X w Hw) as (_ & _ & _ & _ & E & _). rewrite E. apply Qcplus_comm. }
  assert (∀ w, w ∈ all → c2 w = c w) as C2.
  { apply (one_solution n W T D HL (rates (P V) d)); try (intros w Hw%in_all; first [apply (X2 w Hw)|apply (X w Hw)]).
    - intros w Hw%in_all. destruct (X2 w Hw) as (_ & _ & _ & _ & E & _). change (Tt (P V2) d w) with (T w) in E. rewrite E. apply Qcplus_comm.
    - intros w Hw%in_all. destruct (X w Hw) as (_ & _ & _ & _ & E & _). rewrite E. apply Qcplus_comm. }
  destruct (X v Hv) as (_ & _ & Y & _ & _ & _ & YM & _). destruct (X1 v Hv) as (_ & _ & Y1 & _). destruct (X2 v Hv) as (_ & _ & Y2 & _).
  rewrite Y in Et. rewrite Y1 in Et1. rewrite Y2 in Et2. injection Et as Et. injection Et1 as Et1. injection Et2 as Et2.
  pose proof (below_cap _ _ (eq_sym Et) Lt) as Bt. pose proof (below_cap _ _ (eq_sym Et1) Lt1) as Bt1. pose proof (below_cap _ _ (eq_sym Et2) Lt2) as Bt2.
  assert (c v ≠ 0) as Hc.
  { intros E0. rewrite (YM E0) in Bt. rewrite Bt in Lt. change (@cutoff exact) with (@max_tof exact) in Lt. destruct gs_consts as (_ & _ & EM & _). rewrite EM in Lt.
    cbn [num nltb exact] in Lt. apply Qc_ltb_true in Lt. by apply Qclt_not_eq in Lt. }
  assert (τ v = x * τ1 v + y * τ2 v) as E.
  { apply (combine n W T D HL c (pvq (P V)) (pvq (P V1)) (pvq (P V2)) τ τ1 τ2 x y); [| | | | |exact Hva|exact Hc].
    - intros w Hw%in_all. apply (X w Hw).
    - intros w Hw. apply pores_combine. by apply in_all.
    - intros w Hw. apply (X w (in_all w Hw)). apply on_time; [done..|]. by apply HS, in_all.
    - intros w Hw. rewrite <-(C1 w Hw), (qsum_ext _ (λ u, τ1 u * c1 u * W u w)) by (intros; by rewrite C1).
      apply (X1 w (in_all w Hw)). apply on_time; [done..|]. by apply HS1, in_all.
    - intros w Hw. rewrite <-(C2 w Hw), (qsum_ext _ (λ u, τ2 u * c2 u * W u w)) by (intros; by rewrite C2).
      apply (X2 w (in_all w Hw)). apply on_time; [done..|]. by apply HS2, in_all. }
  rewrite Bt, Bt1, Bt2, E. reflexivity.
Qed.
End results.
