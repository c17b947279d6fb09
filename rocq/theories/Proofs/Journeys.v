(** Concentrations and times-of-flight as sums over journeys, in exact
    arithmetic: property C79. *)
From Coq Require Import String QArith Qcanon.
From Verif.Model Require Import Base Num OMap Containers Solution AssembledConnections Tarjan TracerTofSolver Toolbox DerivedQuantities.
From Verif.Spec Require Import GraphSpec FlowSpec DerivedSpec ToolboxSpec MirrorSpec CyclicSpec JourneySpec.
From Verif.Proofs Require Import Util OMapFacts AConn ExactNum QcLra OrdLaws DerivedExact SolverBase SolverRun SolverTop SolverGen GaussSeidel ExactRun Acyclic ToolboxState ToolboxRates ToolboxFlow ToolboxVal ToolboxSane ToolboxThms TofLaws TofRange OppLaws ToolboxExact Duality Balance Cyclic.
Open Scope Z_scope.

(** ** Journeys *)
Section journeys.
Context {N : Num} (n : Z) (A : list arc).

Lemma arrivals_head k v l : l ∈ arrivals n A k v → ∃ l', l = v :: l'.
Proof.
  destruct k as [|k]; cbn [arrivals].
  - intros ->%elem_of_list_singleton. by exists [].
  - intros (u & (l' & -> & _)%elem_of_list_fmap & _)%elem_of_list_bind. by exists l'.
Qed.
Lemma arrivals_length k v l : l ∈ arrivals n A k v → length l = S k.
Proof.
  revert v l. induction k as [|k IH]; intros v l; cbn [arrivals].
  - by intros ->%elem_of_list_singleton.
  - intros (u & (l' & -> & Hl)%elem_of_list_fmap & _)%elem_of_list_bind. cbn. f_equal. by eapply IH.
Qed.
Lemma arrivals_journey k v l : l ∈ arrivals n A k v → journey A l.
Proof.
  revert v l. induction k as [|k IH]; intros v l; cbn [arrivals].
  - by intros ->%elem_of_list_singleton.
  - intros (u & (l' & -> & Hl)%elem_of_list_fmap & Hu)%elem_of_list_bind. destruct (arrivals_head k u l' Hl) as [l2 ->].
    apply elem_of_list_filter in Hu as [Hf _]. split; [done|]. exact (IH u _ Hl).
Qed.
Lemma journey_arrivals v l : arcs_ok n A → journey A (v :: l) → v :: l ∈ arrivals n A (length l) v.
Proof.
  intros HA. revert v. induction l as [|u l IH]; intros v; [intros _; by apply elem_of_list_singleton|].
  intros [Hf Hl]. cbn [length arrivals]. apply elem_of_list_bind. exists u. split; [apply elem_of_list_fmap_1; by apply IH|].
  apply elem_of_list_filter. split; [done|]. apply elem_of_seqZ. unfold flows in Hf. apply elem_of_list_fmap in Hf as (a & E & Ha).
  pose proof (proj1 (Forall_forall _ _) HA a Ha) as [Hr _]. rewrite <-E in Hr. cbn in Hr. lia.
Qed.
Lemma NoDup_bind {X Y} (g : X → list Y) l : NoDup l → (∀ x, x ∈ l → NoDup (g x)) → (∀ x y z, x ∈ l → y ∈ l → z ∈ g x → z ∈ g y → x = y) →
  NoDup (l ≫= g).
Proof.
  induction 1 as [|x l Hx Hl IH]; intros Hg Hd; [constructor|]. cbn. apply NoDup_app. split; [apply Hg; left|]. split.
  - intros z Hz (y & Hz' & Hy)%elem_of_list_bind. apply Hx. rewrite (Hd x y z); [done|left|by right|done|done].
  - apply IH; [intros; apply Hg; by right|]. intros a b z Ha Hb. apply Hd; by right.
Qed.
Lemma arrivals_nodup k v : NoDup (arrivals n A k v).
Proof.
  revert v. induction k as [|k IH]; intros v; cbn [arrivals]; [apply NoDup_singleton|]. apply NoDup_bind.
  - apply NoDup_filter, NoDup_seqZ.
  - intros u _. apply NoDup_fmap_2; [by intros ?? [= ->]|apply IH].
  - intros a b z _ _ (l & -> & Hl)%elem_of_list_fmap (l' & [= <-] & Hl')%elem_of_list_fmap.
    destruct (arrivals_head _ _ _ Hl) as [x ->]. destruct (arrivals_head _ _ _ Hl') as [x' E]. by injection E.
Qed.
Lemma upto_nodup k v : NoDup (arrivals_upto n A k v).
Proof.
  unfold arrivals_upto. apply NoDup_bind; [apply NoDup_seq|intros; apply arrivals_nodup|].
  intros a b z _ _ Ha%arrivals_length Hb%arrivals_length. lia.
Qed.

Lemma journey_down v l u : journey A (v :: l) → u ∈ l → tc (flows A) u v.
Proof.
  revert v. induction l as [|x l IH]; intros v; [by intros _ ?%elem_of_nil|]. intros [Hf Hj] [->|Hu]%elem_of_cons; [by apply tc_once|].
  eapply tc_r; [by apply IH|done].
Qed.
Lemma journey_nodup l : acyclic A → journey A l → NoDup l.
Proof.
  intros Hac. induction l as [|v l IH]; intros Hj; [constructor|]. constructor.
  - intros Hv. apply (Hac v). by eapply journey_down.
  - destruct l as [|u l]; [constructor|]. apply IH, Hj.
Qed.
Lemma journey_range v l : arcs_ok n A → 0 ≤ v < n → journey A (v :: l) → ∀ u, u ∈ v :: l → 0 ≤ u < n.
Proof.
  intros HA Hv Hj u [->|Hu]%elem_of_cons; [done|]. pose proof (journey_down v l u Hj Hu) as Ht.
  assert (∃ x, flows A u x) as [x Hx] by (destruct Ht; eauto). unfold flows in Hx. apply elem_of_list_fmap in Hx as (a & E & Ha).
  pose proof (proj1 (Forall_forall _ _) HA a Ha) as [Hr _]. by rewrite <-E in Hr.
Qed.
Lemma journey_short v l : arcs_ok n A → acyclic A → 0 ≤ v < n → journey A (v :: l) → (S (length l) ≤ Z.to_nat n)%nat.
Proof.
  intros HA Hac Hv Hj. pose proof (journey_nodup _ Hac Hj) as Hn.
  assert (v :: l ⊆ seqZ 0 n) as Hs.
  { intros u Hu. apply elem_of_seqZ. pose proof (journey_range v l HA Hv Hj u Hu). lia. }
  pose proof (submseteq_length _ _ (NoDup_submseteq _ _ Hn Hs)) as HL. by rewrite seqZ_length in HL.
Qed.
Lemma arrivals_end v k : arcs_ok n A → acyclic A → 0 ≤ v < n → (Z.to_nat n ≤ k)%nat → arrivals n A k v = [].
Proof.
  intros HA Hac Hv Hk. destruct (arrivals n A k v) as [|l J] eqn:E; [done|]. exfalso.
  assert (l ∈ arrivals n A k v) as Hl by (rewrite E; left). destruct (arrivals_head _ _ _ Hl) as [l' ->].
  pose proof (arrivals_length _ _ _ Hl) as HL. cbn in HL. pose proof (journey_short v l' HA Hac Hv (arrivals_journey _ _ _ Hl)). lia.
Qed.
Lemma upto_elem v l : arcs_ok n A → acyclic A → 0 ≤ v < n →
  l ∈ arrivals_upto n A (Z.to_nat n) v ↔ journey A l ∧ head l = Some v.
Proof.
  intros HA Hac Hv. unfold arrivals_upto. split.
  - intros (k & Hl & _)%elem_of_list_bind. split; [by eapply arrivals_journey|]. by destruct (arrivals_head _ _ _ Hl) as [l' ->].
  - intros [Hj Hh]. destruct l as [|v' l]; [done|]. injection Hh as ->. apply elem_of_list_bind. exists (length l).
    split; [by apply journey_arrivals|]. apply elem_of_seq. pose proof (journey_short v l HA Hac Hv Hj). lia.
Qed.
End journeys.

(** ** Sums over journeys *)
Lemma qsum_bind {X Y} (f : Y → Qc) (g : X → list Y) l : qsum (map f (l ≫= g)) = qsum (map (λ x, qsum (map f (g x))) l).
Proof.
  induction l as [|x l IH]; [done|]. cbn [map]. change ((x :: l) ≫= g) with (g x ++ (l ≫= g)). rewrite map_app, qsum_app, IH. done.
Qed.

Section sums.
Context {N : Num} (n : Z) (A : list arc) (w : Z → Z → Qc) (T pv b : Z → Qc) (M : Qc).
Notation up := (upstream n A).
Context (G : qgood up w T pv b M).
Local Open Scope Qc_scope.
Notation qmix := (qmix up w).

Fixpoint chq (l : list Z) : Qc :=
  match l with
  | [] => 0
  | v :: l' => match l' with [] => b v / T v | u :: _ => w u v / T v * chq l' end
  end.
Fixpoint duq (l : list Z) : Qc := match l with [] => 0 | v :: l' => pv v / T v + duq l' end.
Definition CS (k : nat) (v : Z) : Qc := qsum (map chq (arrivals n A k v)).
Definition DS (k : nat) (v : Z) : Qc := qsum (map (λ l, chq l * duq l) (arrivals n A k v)).
Definition CU (k : nat) (v : Z) : Qc := qsum (map chq (arrivals_upto n A k v)).
Definition DU (k : nat) (v : Z) : Qc := qsum (map (λ l, chq l * duq l) (arrivals_upto n A k v)).

Lemma CS_0 v : CS 0 v = b v / T v.
Proof. unfold CS, qsum. cbn. ring. Qed.
Lemma CS_S k v : CS (S k) v = qmix (CS k) v / T v.
Proof.
  unfold CS at 1. cbn [arrivals]. rewrite qsum_bind. unfold GaussSeidel.qmix, Qcdiv. rewrite Qcmult_comm, <-qsum_scale.
  apply qsum_ext. intros u _. rewrite map_map. rewrite (qsum_ext _ (λ l, (w u v / T v) * chq l)).
  - rewrite qsum_scale. unfold CS, Qcdiv. ring.
  - intros l Hl. destruct (arrivals_head _ _ _ _ _ Hl) as [l' ->]. done.
Qed.
Lemma DS_0 v : DS 0 v = pv v / T v * CS 0 v.
Proof. rewrite CS_0. unfold DS, qsum. cbn. ring. Qed.
Lemma DS_S k v : DS (S k) v = qmix (DS k) v / T v + pv v / T v * CS (S k) v.
Proof.
  rewrite CS_S. unfold DS at 1. cbn [arrivals]. rewrite qsum_bind.
  transitivity (qsum (map (λ u, (w u v / T v) * DS k u + (pv v / T v) * ((w u v / T v) * CS k u)) (up v))).
  - apply qsum_ext. intros u _. rewrite map_map.
    rewrite (qsum_ext _ (λ l, (w u v / T v) * (chq l * duq l) + (pv v / T v) * ((w u v / T v) * chq l))).
    + rewrite qsum_plus, !qsum_scale. done.
    + intros l Hl. destruct (arrivals_head _ _ _ _ _ Hl) as [l' ->]. change (duq (v :: u :: l')) with (pv v / T v + duq (u :: l')).
      change (chq (v :: u :: l')) with (w u v / T v * chq (u :: l')). ring.
  - rewrite qsum_plus, qsum_scale. unfold GaussSeidel.qmix, Qcdiv. f_equal.
    + rewrite (Qcmult_comm (qsum _)), <-qsum_scale. apply qsum_ext. intros; ring.
    + f_equal. rewrite (Qcmult_comm (qsum _)), <-qsum_scale. apply qsum_ext. intros; ring.
Qed.
Lemma CU_sum k v : CU k v = qsum (map (λ i, CS i v) (seq 0 (S k))).
Proof. unfold CU, arrivals_upto. by rewrite qsum_bind. Qed.
Lemma DU_sum k v : DU k v = qsum (map (λ i, DS i v) (seq 0 (S k))).
Proof. unfold DU, arrivals_upto. by rewrite qsum_bind. Qed.
Lemma qsum_seq (h : nat → Qc) k : qsum (map h (seq 0 (S k))) = h O + qsum (map (λ i, h (S i)) (seq 0 k)).
Proof. cbn [seq map]. rewrite <-seq_shift, map_map. done. Qed.
Lemma qsum_last (h : nat → Qc) k : qsum (map h (seq 0 (S k))) = qsum (map h (seq 0 k)) + h k.
Proof. rewrite seq_S, map_app, qsum_app. f_equal. unfold qsum. cbn. ring. Qed.
Lemma qmix_seq (h : nat → Z → Qc) l v : qsum (map (λ i, qmix (h i) v / T v) l) = qmix (λ u, qsum (map (λ i, h i u) l)) v / T v.
Proof.
  unfold GaussSeidel.qmix, Qcdiv. rewrite (qsum_ext _ (λ i, / T v * qsum (map (λ u, h i u * w u v) (up v)))) by (intros; ring).
  rewrite qsum_scale, Qcmult_comm. f_equal. rewrite (qsum_swap (λ i u, h i u * w u v)). apply qsum_ext. intros u _.
  rewrite (qsum_ext _ (λ i, w u v * h i u)) by (intros; ring). rewrite qsum_scale. ring.
Qed.
Lemma CU_0 v : CU 0 v = b v / T v.
Proof. rewrite CU_sum, qsum_seq, CS_0. unfold qsum. cbn. ring. Qed.
Lemma CU_S k v : CU (S k) v = qcell up w T b (CU k) v.
Proof.
  rewrite CU_sum, qsum_seq, CS_0. rewrite (qsum_ext _ (λ i, qmix (CS i) v / T v)) by (intros; apply CS_S). rewrite qmix_seq.
  assert (qmix (CU k) v = qmix (λ u, qsum (map (λ i, CS i u) (seq 0 (S k)))) v) as E by (apply qsum_ext; intros u _; by rewrite CU_sum).
  unfold qcell, Qcdiv. rewrite E. ring.
Qed.
Lemma DU_0 v : DU 0 v = pv v * CU 0 v / T v.
Proof. rewrite DU_sum, qsum_seq, DS_0, CU_0, CS_0. unfold qsum, Qcdiv. cbn. ring. Qed.
Lemma DU_S k v : DU (S k) v = (pv v * CU (S k) v + qmix (DU k) v) / T v.
Proof.
  rewrite DU_sum, qsum_seq, DS_0. rewrite (qsum_ext _ (λ i, qmix (DS i) v / T v + pv v / T v * CS (S i) v)) by (intros; apply DS_S).
  rewrite qsum_plus, qmix_seq, qsum_scale, CU_sum, (qsum_seq (λ i, CS i v)).
  assert (qmix (DU k) v = qmix (λ u, qsum (map (λ i, DS i u) (seq 0 (S k)))) v) as E by (apply qsum_ext; intros u _; by rewrite DU_sum).
  unfold Qcdiv. rewrite E. ring.
Qed.

Lemma chq_nonneg k v l : l ∈ arrivals n A k v → 0 <= chq l.
Proof.
  revert v l. induction k as [|k IH]; intros v l; cbn [arrivals].
  - intros ->%elem_of_list_singleton. cbn. apply qdiv_nonneg; [apply (g_b _ _ _ _ _ _ G)|apply (T_nonneg _ _ _ _ _ _ G)].
  - intros (u & (l' & -> & Hl)%elem_of_list_fmap & Hu)%elem_of_list_bind. destruct (arrivals_head _ _ _ _ _ Hl) as [l2 ->].
    change (chq (v :: u :: l2)) with (w u v / T v * chq (u :: l2)). apply qmul_nonneg; [|by eapply IH].
    apply qdiv_nonneg; [by apply (g_w _ _ _ _ _ _ G)|apply (T_nonneg _ _ _ _ _ _ G)].
Qed.
Lemma duq_nonneg l : 0 <= duq l.
Proof.
  induction l as [|v l IH]; [apply Qcle_refl|]. cbn [duq]. 
  assert (0 <= pv v / T v) by (apply qdiv_nonneg; [apply (g_pv _ _ _ _ _ _ G)|apply (T_nonneg _ _ _ _ _ _ G)]). qclra.
Qed.
Lemma CU_nonneg k v : 0 <= CU k v.
Proof. apply qsum_map_nonneg. intros l (i & Hl & _)%elem_of_list_bind. by eapply chq_nonneg. Qed.
Lemma DU_nonneg k v : 0 <= DU k v.
Proof. apply qsum_map_nonneg. intros l (i & Hl & _)%elem_of_list_bind. apply qmul_nonneg; [by eapply chq_nonneg|apply duq_nonneg]. Qed.

(** Iterations stay below the sums. *)
Lemma qmix_le h h' v : (∀ u, h u <= h' u) → qmix h v <= qmix h' v.
Proof. intros H. apply qsum_le. intros u Hu. apply Qcmult_le_compat_r; [done|by apply (g_w _ _ _ _ _ _ G)]. Qed.
Lemma jac_below (S : Z → Prop) `{∀ v, Decision (S v)} k : ∀ v,
  (jac up w T pv b M S k).2 v <= CU k v ∧ (jac up w T pv b M S k).1 v <= DU k v.
Proof.
  induction k as [|k IH]; intros v; [split; [apply CU_nonneg|apply DU_nonneg]|].
  rewrite jac_S. cbn [fst snd]. destruct (decide (S v)) as [Hv|Hv]; [|split; [apply CU_nonneg|apply DU_nonneg]].
  set (X := jac up w T pv b M S k) in *. clearbody X.
  pose proof (T_nonneg _ _ _ _ _ _ G v) as HT. pose proof (g_pv _ _ _ _ _ _ G v) as Hpv. pose proof (g_M _ _ _ _ _ _ G) as HM.
  assert (qcell up w T b X.2 v <= CU (Datatypes.S k) v) as Hc.
  { rewrite CU_S. apply (qcell_mono _ _ _ pv _ M G). intros; apply IH. }
  split; [done|]. rewrite DU_S. 
  assert (0 <= qmix (DU k) v) as Hd by (apply (qmix_nonneg _ _ _ _ _ _ G); intros; apply DU_nonneg).
  pose proof (CU_nonneg (Datatypes.S k) v) as Hcu.
  unfold yF. destruct (capped T pv M v) eqn:E.
  - destruct (Qc_eq_dec (T v) 0) as [E0|E0].
    { unfold qcell. rewrite E0. unfold Qcdiv. change (/ 0) with 0. rewrite !Qcmult_0_r. apply Qcle_refl. }
    assert (0 < T v) as HTp by (apply Qcle_lt_or_eq in HT as [?|?]; congruence).
    eapply Qcle_trans; [|apply (qdiv_le (pv v * CU (Datatypes.S k) v)); [qclra|done]].
    unfold capped in E. apply Qc_ltb_true in E.
    assert (M * T v <= pv v) as Hmt.
    { apply Qclt_le_weak in E. apply (Qcmult_le_compat_r _ _ M) in E; [|by apply Qclt_le_weak].
      assert (M ≠ 0) by (intros E1; by rewrite E1 in HM). assert (pv v / M * M = pv v) as E1 by (field; done). rewrite E1 in E. by rewrite Qcmult_comm. }
    assert (M * CU (Datatypes.S k) v <= pv v * CU (Datatypes.S k) v / T v) as Hm.
    { assert (M * CU (Datatypes.S k) v = M * T v * CU (Datatypes.S k) v / T v) as -> by (field; done).
      apply qdiv_le; [|done]. by apply Qcmult_le_compat_r. }
    eapply Qcle_trans; [|exact Hm]. rewrite !(Qcmult_comm M). apply Qcmult_le_compat_r; [done|by apply Qclt_le_weak].
  - apply qdiv_le; [|done]. assert (qmix X.1 v <= qmix (DU k) v) by (apply qmix_le; intros; apply IH).
    assert (pv v * qcell up w T b X.2 v <= pv v * CU (Datatypes.S k) v) by (rewrite !(Qcmult_comm (pv v)); by apply Qcmult_le_compat_r). qclra.
Qed.

(** Without cycles the sums solve the equations. *)
Lemma upto_end K v : arcs_ok n A → acyclic A → (Z.to_nat n ≤ S K)%nat → (0 ≤ v < n)%Z → arrivals_upto n A (S K) v = arrivals_upto n A K v.
Proof.
  intros HA Hac HK Hv. unfold arrivals_upto. rewrite (seq_S (S K)), bind_app. cbn [Nat.add mbind list_bind].
  rewrite (arrivals_end n A v (S K)), !app_nil_r by done. done.
Qed.
Lemma up_range u v : u ∈ up v → (0 ≤ u < n)%Z.
Proof. intros [_ Hu]%elem_of_list_filter. apply elem_of_seqZ in Hu. lia. Qed.
Lemma CU_fix K v : arcs_ok n A → acyclic A → (Z.to_nat n ≤ S K)%nat → (0 ≤ v < n)%Z →
  CU K v = (qmix (CU K) v + b v) / T v.
Proof.
  intros HA Hac HK Hv. transitivity (CU (S K) v); [unfold CU; by rewrite upto_end|]. apply CU_S.
Qed.
Lemma DU_fix K v : arcs_ok n A → acyclic A → (Z.to_nat n ≤ S K)%nat → (0 ≤ v < n)%Z →
  DU K v = (pv v * CU K v + qmix (DU K) v) / T v.
Proof.
  intros HA Hac HK Hv. transitivity (DU (S K) v); [unfold DU; by rewrite upto_end|]. rewrite DU_S. unfold CU. by rewrite upto_end.
Qed.
End sums.

(** ** The toolbox *)
Section toolbox.
Context (p : @problem exact) (g : cgraph) (f : cvalues) (Hp : valid p) (HP : poses p g f).
Context (HD : data finite p) (HV : pores_ok p).
Notation n := (pb_cells p).
Notation m := (pb_rates p).
Notation all := (seqZ 0 n).
Notation Tt := (Tt p).
Notation Wt := (Wt p).
Notation rq := (rq p).
Notation pvq := (pvq p).
Local Notation fin x := (Fin x : @num exact).
Local Open Scope Qc_scope.

(** Sources that are finite and part of the total. *)
Record source_ok (d : direction) (s : Z → @num exact) (b : Z → Qc) : Prop := {
  so_fin : ∀ v, s v = fin (b v);
  so_good : qgood (upstream n (flow d p)) (Wt d) (Tt d) pvq b gs_M
}.
Context (d : direction) (s : Z → @num exact) (b : Z → Qc) (HS : source_ok d s b).
Notation chq := (chq (Wt d) (Tt d) b).
Notation duq := (duq (Tt d) pvq).

Lemma tt_pos_in u v : flows (flow d p) u v → 0 < Tt d v.
Proof.
  intros Hf. pose proof (so_good _ _ _ HS) as G. eapply Qclt_le_trans; [|apply (g_T _ _ _ _ _ _ G)].
  pose proof (flux_fin _ _ _ _ _ (finite_global p Hp HD HV d) u v) as (_ & _ & Hw). specialize (Hw Hf).
  assert (u ∈ upstream n (flow d p) v) as Hu.
  { apply elem_of_list_filter. split; [done|]. apply elem_of_seqZ. pose proof (flow_arcs p Hp d) as HA. unfold flows in Hf.
    apply elem_of_list_fmap in Hf as (a & E & Ha). pose proof (proj1 (Forall_forall _ _) HA a Ha) as [Hr _]. rewrite <-E in Hr. cbn in Hr. lia. }
  pose proof (qsum_elem_le (λ u, 1 * Wt d u v) _ u ltac:(intros x _; apply qmul_nonneg; [done|apply (Wt_nonneg p Hp HD HV)]) Hu) as Hle.
  cbn beta in Hle. rewrite Qcmult_1_l in Hle. pose proof (g_b _ _ _ _ _ _ G v) as Hb.
  unfold qmix. change (wq (flow d p)) with (Wt d) in Hw. qclra.
Qed.
Lemma ndiv_q x y : y ≠ 0 → @ndiv exact (fin x) (fin y) = fin (x / y).
Proof. intros H. cbn [num ndiv exact]. unfold xdiv. by rewrite (proj2 (Qc_eqb_false _ _) H). Qed.
Lemma pos_ne x : 0 < x → x ≠ 0. Proof. by intros H ->. Qed.
Lemma chance_q k v l : l ∈ arrivals n (flow d p) k v → chance p d s l = fin (chq l).
Proof.
  pose proof (so_good _ _ _ HS) as G. revert v l. induction k as [|k IH]; intros v l; cbn [arrivals].
  - intros ->%elem_of_list_singleton. cbn [chance Journeys.chq]. rewrite (so_fin _ _ _ HS), exact_n0, (Tt_q p Hp HD HV).
    destruct (nltb (fin 0) (fin (b v))) eqn:E.
    + apply xltb_Fin in E. apply ndiv_q, pos_ne. eapply Qclt_le_trans; [exact E|].
      pose proof (g_T _ _ _ _ _ _ G v). assert (0 <= qmix (upstream n (flow d p)) (Wt d) (λ _, 1) v) by (apply (qmix_nonneg _ _ _ _ _ _ G); done). qclra.
    + assert (b v = 0) as ->; [|f_equal; unfold Qcdiv; ring]. apply Qcle_antisym; [|apply (g_b _ _ _ _ _ _ G)].
      apply Qcnot_lt_le. intros Hlt. assert (nltb (fin 0) (fin (b v)) = true) as E' by (by apply xltb_Fin). by rewrite E' in E.
  - intros (u & (l' & -> & Hl)%elem_of_list_fmap & Hu)%elem_of_list_bind. destruct (arrivals_head _ _ _ _ _ Hl) as [l2 ->].
    apply elem_of_list_filter in Hu as [Hf _].
    change (chance p d s (v :: u :: l2)) with (nmul (ndiv (arc_flux (flow d p) u v) (total_in p d v)) (chance p d s (u :: l2))).
    rewrite (IH u _ Hl), (Tt_q p Hp HD HV), (proj1 (flux_fin _ _ _ _ _ (finite_global p Hp HD HV d) u v)).
    rewrite ndiv_q by (by eapply pos_ne, tt_pos_in). done.
Qed.
Lemma duration_q k v l : l ∈ arrivals n (flow d p) k v → 0 < chq l → duration p d l = fin (duq l).
Proof.
  pose proof (so_good _ _ _ HS) as G. revert v l. induction k as [|k IH]; intros v l; cbn [arrivals].
  - intros ->%elem_of_list_singleton. cbn [duration Journeys.duq Journeys.chq]. intros Hc. rewrite (pore_q p HD HV), (Tt_q p Hp HD HV).
    rewrite ndiv_q by (intros E; rewrite E, qdiv_0 in Hc; done). done.
  - intros (u & (l' & -> & Hl)%elem_of_list_fmap & Hu)%elem_of_list_bind. destruct (arrivals_head _ _ _ _ _ Hl) as [l2 ->].
    apply elem_of_list_filter in Hu as [Hf _].
    change (chq (v :: u :: l2)) with (Wt d u v / Tt d v * chq (u :: l2)). intros Hc.
    assert (0 < chq (u :: l2)) as Hc'.
    { pose proof (chq_nonneg _ _ _ _ _ _ _ G k u _ Hl) as H0. apply Qcle_lt_or_eq in H0 as [|E]; [done|]. rewrite <-E, Qcmult_0_r in Hc. done. }
    change (duration p d (v :: u :: l2)) with (nadd (ndiv (pore p v) (total_in p d v)) (duration p d (u :: l2))).
    rewrite (IH u _ Hl Hc'), (Tt_q p Hp HD HV), (pore_q p HD HV). rewrite ndiv_q by (by eapply pos_ne, tt_pos_in). done.
Qed.
Lemma chances_q K v : chances p d s (arrivals_upto n (flow d p) K v) = fin (CU n (flow d p) (Wt d) (Tt d) b K v).
Proof.
  unfold chances, CU. apply sum_left_fin. intros l (k & Hl & _)%elem_of_list_bind. by eapply chance_q.
Qed.
Lemma durations_q K v : durations p d s (arrivals_upto n (flow d p) K v) = fin (DU n (flow d p) (Wt d) (Tt d) pvq b K v).
Proof.
  unfold durations, DU. set (J := arrivals_upto n (flow d p) K v).
  assert (∀ l, l ∈ J → ∃ k, l ∈ arrivals n (flow d p) k v) as HJ by (intros l (k & Hl & _)%elem_of_list_bind; eauto). clearbody J.
  rewrite (sum_left_fin _ (λ l, chq l * duq l)).
  - f_equal. apply qsum_filter0. intros l Hl Hc. destruct (HJ l Hl) as [k Hk]. rewrite (chance_q k v l Hk), exact_n0 in Hc.
    assert (chq l = 0) as ->; [|ring]. pose proof (chq_nonneg _ _ _ _ _ _ _ (so_good _ _ _ HS) k v l Hk) as H0.
    apply Qcle_antisym; [|done]. apply Qcnot_lt_le. intros Hlt. apply Hc. by apply xltb_Fin.
  - intros l [Hc Hl]%elem_of_list_filter. destruct (HJ l Hl) as [k Hk]. rewrite (chance_q k v l Hk), exact_n0 in Hc. apply xltb_Fin in Hc.
    rewrite (chance_q k v l Hk), (duration_q k v l Hk Hc). done.
Qed.

(** Equations on a network without cycles have one solution. *)
Lemma tracer_is (c : Z → Qc) : acyclic (net_arcs p) → (∀ v, (0 ≤ v < n)%Z → Tt d v = 0 → c v = 0) →
  (∀ v, (0 ≤ v < n)%Z → Tt d v * c v = qsum (map (λ u, c u * Wt d u v) all) + b v) →
  ∀ v, (0 ≤ v < n)%Z → c v = CU n (flow d p) (Wt d) (Tt d) b (Z.to_nat n) v.
Proof.
  intros Hac H0 Heq. pose proof (acyclic_flow p d Hac) as Hac'. pose proof (flow_arcs p Hp d) as HA.
  intros v. pose proof (flows_wf _ Hac' v) as Hwf. induction Hwf as [v _ IH]. intros Hv.
  rewrite (CU_fix n (flow d p)) by (done || lia). destruct (Qc_eq_dec (Tt d v) 0) as [E|E]; [by rewrite E, qdiv_0, H0|].
  assert (c v = Tt d v * c v / Tt d v) as -> by (field; done). f_equal. rewrite Heq by done. f_equal.
  rewrite <-qmix_all. apply qsum_ext. intros u Hu. f_equal. apply IH; [by apply elem_of_list_filter in Hu as [? _]|by eapply up_range].
Qed.
Lemma times_are (c y : Z → Qc) : acyclic (net_arcs p) → (∀ v, (0 ≤ v < n)%Z → Tt d v = 0 → c v = 0) →
  (∀ v, (0 ≤ v < n)%Z → Tt d v * c v = qsum (map (λ u, c u * Wt d u v) all) + b v) →
  (∀ v, (0 ≤ v < n)%Z → c v = 0 → y v = 0) →
  ∀ v, (0 ≤ v < n)%Z → (∀ u, (0 ≤ u < n)%Z → leads (flow d p) u v → c u ≠ 0 → Tt d u * y u = pvq u * c u + qsum (map (λ x, y x * Wt d x u) all)) →
  y v = DU n (flow d p) (Wt d) (Tt d) pvq b (Z.to_nat n) v.
Proof.
  intros Hac H0 Heq Hy. pose proof (acyclic_flow p d Hac) as Hac'. pose proof (flow_arcs p Hp d) as HA.
  pose proof (so_good _ _ _ HS) as G. pose proof (tracer_is c Hac H0 Heq) as Hc.
  assert (∀ v, (0 ≤ v < n)%Z → c v = 0 → DU n (flow d p) (Wt d) (Tt d) pvq b (Z.to_nat n) v = 0) as HZ.
  { intros v Hv E. rewrite (Hc v Hv) in E. unfold CU in E.
    assert (∀ l, l ∈ arrivals_upto n (flow d p) (Z.to_nat n) v → 0 <= chq l) as Hnn
      by (intros l (k & Hl & _)%elem_of_list_bind; by eapply chq_nonneg).
    apply qsum_0. intros l Hl. rewrite (qsum_zero chq _ Hnn E l Hl). ring. }
  intros v. pose proof (flows_wf _ Hac' v) as Hwf. induction Hwf as [v _ IH]. intros Hv Hb.
  destruct (Qc_eq_dec (c v) 0) as [E|E]; [by rewrite Hy, HZ|].
  assert (Tt d v ≠ 0) as HT by (intros E'; by apply E, H0).
  rewrite (DU_fix n (flow d p)) by (done || lia). assert (y v = Tt d v * y v / Tt d v) as -> by (field; done). f_equal.
  rewrite Hb by (done || apply rtc_refl). rewrite <-Hc by done. f_equal.
  rewrite <-qmix_all. apply qsum_ext. intros u Hu. f_equal. apply elem_of_list_filter in Hu as Hu'.
  apply IH; [apply Hu'|by eapply up_range|]. intros x Hx Hl. apply Hb; [done|]. eapply rtc_r; [done|apply Hu'].
Qed.
End toolbox.

Section results.
Context (p : @problem exact) (g : cgraph) (f : cvalues) (Hp : valid p) (HP : poses p g f).
Context (HD : data finite p) (HV : pores_ok p).
Notation n := (pb_cells p).
Notation m := (pb_rates p).
Notation all := (seqZ 0 n).
Notation Tt := (Tt p).
Notation Wt := (Wt p).
Notation rq := (rq p).
Notation pvq := (pvq p).
Local Notation fin x := (Fin x : @num exact).
Local Open Scope Qc_scope.

Lemma well_source d id : source_ok p d (rate_of p d id) (rq d id).
Proof.
  split; [|exact (good p Hp HD HV d id)]. intros v. unfold rate_of, Duality.rq. destruct (well_rate d m id v) as [r|] eqn:E; [|apply exact_n0].
  destruct (rate_fin p Hp HD d id v r E) as (q & -> & _). done.
Qed.
Lemma all_source d : source_ok p d (cell_total d m) (rates p d).
Proof.
  split; [intros v; by apply cell_total_q|]. pose proof (good p Hp HD HV d) as G. destruct (G ""%string) as [G1 G2 G3 G4 G5].
  split; try done.
  - intros v. apply qsum_map_nonneg. intros id _. apply (g_b _ _ _ _ _ _ (G id)).
  - intros v. rewrite Tt_eq by done. unfold rates. rewrite <-(Qcplus_comm (qsum _)), <-(Qcplus_comm (qsum _)).
    rewrite qmix_all. rewrite (qsum_ext (λ u, 1 * Wt d u v) (λ u, Wt d u v)) by (intros; ring). apply Qcle_refl.
Qed.

Notation J d v := (journeys p d v).
Lemma cut_q : @cutoff exact = fin gs_M.
Proof. apply gs_consts. Qed.
Lemma M_pos : 0 < gs_M. Proof. apply (g_M _ _ _ _ _ _ (good p Hp HD HV Injection ""%string)). Qed.
Lemma brisk_late d v : nltb (total_in p d v) (ndiv (pore p v) cutoff) = false → late p d v = false.
Proof.
  rewrite cut_q, (Tt_q p Hp HD HV), (pore_q p HD HV). rewrite ndiv_q by (apply pos_ne, M_pos). done.
Qed.
Lemma well_journeys d ev sets sol id : acyclic (net_arcs p) → diagnose d ev g p f sets = Ok (OSol sol) → (is_well d m id → id ∈ map cs_id sets) →
  ∀ v, (0 ≤ v < n)%Z → value_at (sol_concentration sol id) v = chances p d (rate_of p d id) (J d v) ∧
    ∀ t, om_find v (sol_tof sol id) = Some t → brisk p d (served p d id) v →
      t = nmin (ndiv (durations p d (rate_of p d id) (J d v)) (chances p d (rate_of p d id) (J d v))) cutoff.
Proof.
  intros Hac H Hreq v Hv. destruct (local_exact p g f Hp HP HD HV Hac d ev sets sol id H Hreq) as (τ & Hc & Hx).
  pose proof (well_source d id) as HS. unfold journeys.
  rewrite (chances_q p Hp HD HV d _ _ HS), (durations_q p Hp HD HV d _ _ HS).
  assert (∀ v, (0 ≤ v < n)%Z → cq sol id v = CU n (flow d p) (Wt d) (Tt d) (rq d id) (Z.to_nat n) v) as Ec.
  { apply (tracer_is p Hp d _ _ Hac); intros u Hu; apply Hx. }
  rewrite <-Ec by done. split; [apply Hc|]. intros t Ht Hb.
  destruct (decide (id ∈ map cs_id sets)) as [Hid|Hid].
  2:{ destruct (diagnose_other p g f Hp HP d ev sets sol id H Hid) as [E1 _]. by rewrite E1 in Ht. }
  destruct (Hx v) as (_ & _ & Et & _). rewrite (Et t Ht). f_equal.
  assert (∀ u, cq sol id u ≠ 0 → served p d id u) as Hsv.
  { intros u Hne. apply (proj1 (proj1 (support p g f Hp HP d ev sets sol id u H Hid))).
    destruct (om_find u (sol_concentration sol id)) eqn:E; [done|].
    exfalso. apply Hne. unfold cq, value_at. by rewrite E, exact_n0. }
  assert (cq sol id v ≠ 0) as Hne.
  { assert (served p d id v) as Hs by (apply (proj1 (proj2 (support p g f Hp HP d ev sets sol id v H Hid))); by rewrite Ht).
    apply (proj2 (proj1 (support p g f Hp HP d ev sets sol id v H Hid))) in Hs as [c Hs].
    pose proof (proj1 (value_ranges p g f Hp HP exact_laws exact_opp_laws (exact_data p HD) exact_tof_laws HV d ev sets sol id
      (exact_no_overflow p Hp HD HV d) H) v c Hs) as (_ & Hpos & _).
    specialize (Hc v). unfold value_at in Hc. rewrite Hs in Hc. rewrite Hc, exact_n0 in Hpos. apply xltb_Fin in Hpos. by apply pos_ne. }
  rewrite ndiv_q by done. f_equal.
  rewrite <-(times_are p Hp d _ _ HS (cq sol id) (λ u, τ u * cq sol id u) Hac) with (v := v).
  - field. done.
  - intros u _. apply Hx.
  - intros u _. apply Hx.
  - intros u _ ->. ring.
  - done.
  - intros u Hu Hl Hcu. destruct (Hx u) as (_ & _ & _ & _ & _ & _ & _ & E). rewrite <-E; [ring|]. apply brisk_late, Hb; [done|by apply Hsv].
Qed.

Lemma chq_source d b k v l : l ∈ arrivals n (flow d p) k v → chq (Wt d) (Tt d) b l ≠ 0 → ∃ r, b r ≠ 0 ∧ leads (flow d p) r v.
Proof.
  revert v l. induction k as [|k IH]; intros v l; cbn [arrivals].
  - intros ->%elem_of_list_singleton Hc. exists v. split; [|apply rtc_refl]. intros E. apply Hc. cbn. rewrite E. unfold Qcdiv. ring.
  - intros (u & (l' & -> & Hl)%elem_of_list_fmap & Hu)%elem_of_list_bind. destruct (arrivals_head _ _ _ _ _ Hl) as [l2 ->].
    change (chq (Wt d) (Tt d) b (v :: u :: l2)) with (Wt d u v / Tt d v * chq (Wt d) (Tt d) b (u :: l2)). intros Hc.
    destruct (IH u _ Hl) as (r & Hr & Hlr); [intros E; apply Hc; rewrite E; ring|]. exists r. split; [done|].
    eapply rtc_r; [done|]. by apply elem_of_list_filter in Hu as [? _].
Qed.
Lemma all_served d K v : CU n (flow d p) (Wt d) (Tt d) (rates p d) K v ≠ 0 → ∃ id, served p d id v.
Proof.
  intros Hc. destruct (decide (Exists (λ l, chq (Wt d) (Tt d) (rates p d) l ≠ 0) (arrivals_upto n (flow d p) K v))) as [He|He].
  - apply Exists_exists in He as (l & (k & Hl & _)%elem_of_list_bind & Hne). destruct (chq_source d _ k v l Hl Hne) as (r & Hr & Hlr).
    destruct (decide (Exists (λ id, is_Some (well_rate d m id r)) (map fst m))) as [Hw|Hw].
    + apply Exists_exists in Hw as (id & _ & Hs). exists id, r. done.
    + exfalso. apply Hr. unfold rates. apply qsum_0. intros id Hid. unfold Duality.rq. destruct (well_rate d m id r) eqn:E; [|done].
      exfalso. apply Hw, Exists_exists. exists id. split; [done|]. by rewrite E.
  - exfalso. apply Hc. unfold CU. apply qsum_0. intros l Hl. destruct (Qc_eq_dec (chq (Wt d) (Tt d) (rates p d) l) 0) as [|Hne]; [done|].
    exfalso. apply He, Exists_exists. eauto.
Qed.
Lemma global_journeys d ev sets sol : acyclic (net_arcs p) → diagnose d ev g p f sets = Ok (OSol sol) →
  ∀ v, (0 ≤ v < n)%Z → brisk p d (λ u, ∃ id, served p d id u) v → 
    sol_global_tof sol !! Z.to_nat v = Some (if nltb n0 (chances p d (cell_total d m) (J d v))
      then nmin (ndiv (durations p d (cell_total d m) (J d v)) (chances p d (cell_total d m) (J d v))) cutoff else cutoff).
Proof.
  intros Hac H v Hv Hb. destruct (global_exact p g f Hp HP HD HV Hac d ev sets sol H) as (_ & τ & c & Hx).
  pose proof (all_source d) as HS. unfold journeys.
  rewrite (chances_q p Hp HD HV d _ _ HS), (durations_q p Hp HD HV d _ _ HS).
  assert (∀ v, (0 ≤ v < n)%Z → c v = CU n (flow d p) (Wt d) (Tt d) (rates p d) (Z.to_nat n) v) as Ec.
  { apply (tracer_is p Hp d _ _ Hac); intros u Hu; by apply Hx. }
  rewrite <-Ec, exact_n0 by done. destruct (Hx v Hv) as (_ & [Hc0 _] & -> & _ & _ & _ & Hz & _). f_equal.
  destruct (nltb (fin 0) (fin (c v))) eqn:E.
  - apply xltb_Fin in E. apply pos_ne in E. change max_tof with (@cutoff exact). f_equal. rewrite ndiv_q by done. f_equal.
    rewrite <-(times_are p Hp d _ _ HS c (λ u, τ u * c u) Hac) with (v := v).
    + field. done.
    + intros u Hu. by apply Hx.
    + intros u Hu. by apply Hx.
    + intros u _ ->. ring.
    + done.
    + intros u Hu Hl Hcu. destruct (Hx u Hu) as (_ & _ & _ & _ & _ & _ & _ & E'). rewrite <-E'; [ring|].
      apply brisk_late, Hb; [done|]. rewrite Ec in Hcu by done. by eapply all_served.
  - rewrite Hz; [rewrite mq_fin; unfold mq; rewrite cut_q; by destruct (Qc_ltb gs_M gs_M)|].
    apply Qcle_antisym; [|done]. apply Qcnot_lt_le. intros Hlt. assert (nltb (fin 0) (fin (c v)) = true) as E' by (by apply xltb_Fin). by rewrite E' in E.
Qed.

Lemma cyclic_journeys d ev sets sol id : diagnose d ev g p f sets = Ok (OSol sol) → ∃ K, ∀ v,
  nleb (value_at (sol_concentration sol id) v) (chances p d (rate_of p d id) (arrivals_upto n (flow d p) K v)) = true ∧
  nleb (nmul (value_at (sol_concentration sol id) v) (value_at (sol_tof sol id) v))
    (durations p d (rate_of p d id) (arrivals_upto n (flow d p) K v)) = true.
Proof.
  intros H. destruct (well_jac p g f Hp HP HD HV d ev sets sol id H) as [K HK]. exists K. intros v.
  pose proof (well_source d id) as HS. pose proof (jac_below _ _ _ _ _ _ _ (so_good _ _ _ _ HS) (λ v, (0 ≤ v < n)%Z) K v) as [B1 B2].
  rewrite (chances_q p Hp HD HV d _ _ HS), (durations_q p Hp HD HV d _ _ HS). destruct (HK v) as (E & H1 & t & E2 & H2).
  rewrite E2, E. split; apply xleb_Fin; eapply Qcle_trans; eauto.
Qed.
End results.
